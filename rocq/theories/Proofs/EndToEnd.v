(** Whole configurations deserialised into structs (C78) and written back (C79). *)
From Coq Require Import ZArith Bool String Permutation Lia.
From Coq Require Import List.
Import ListNotations.
From Verif.Model Require Import Text Num Flt Value Merge Paths Finder World Layers Config Convert Serde.
From Verif.Spec Require Import Spec MergeSpec ConfigSpec EnvSpec PathSpec SerdeSpec.
From Verif.Proofs Require Import Basics Merge ConfigBuild Utf8 Env Files SerProofs DeProofs RoundTrip SerdeMore.

(** Either some variable is the last one exposed under k, or none is. *)
Lemma exposed_or_not p env k : p <> [] ->
  (exists s, last_exposed p env k s) \/ (forall kv s, In kv env -> ~ exposes p kv k s).
Proof.
  intros Np. induction env as [|kv env IH] using rev_ind; [right; intros ? ? I; destruct I|].
  destruct (exposes_dec p kv k Np) as [[s X]|N].
  - left. exists s, env, kv, []. split; [reflexivity|]. split; [exact X|]. intros ? [].
  - destruct IH as [(s & b & kv0 & a & -> & X & L)|IH].
    + left. exists s, b, kv0, (a ++ [kv]). rewrite <- app_assoc. split; auto. split; auto.
      intros kv' I. apply in_app_iff in I as [I|[<-|[]]]; auto.
    + right. intros kv' s I. apply in_app_iff in I as [I|[<-|[]]]; auto.
Qed.
Lemma exposed_not_both p env k s : last_exposed p env k s -> (forall kv s, In kv env -> ~ exposes p kv k s) -> False.
Proof. intros (b & kv & a & -> & X & _) N. apply (N kv s); auto. apply in_or_app; right; left; auto. Qed.

(** ** C78 *)
Lemma typed_with_environment w c c0 r n prefix p v v0 skip fs ds :
  registered c (r ++ [(n, env_layer_new prefix)]) -> registered c0 r ->
  (forall n' l x, In (n', l) r -> layer_read w l = Ok x -> wf x) ->
  trimmed prefix p -> p <> [] ->
  build_value w c skip = Ok v -> build_value w c0 skip = Ok v0 -> NoDup (map fst fs) ->
  (de (TStruct fs) v = Done ds <->
   exists l, ds = DStruct l /\ Forall2 (fun f d =>
     (exists s, last_exposed p (w_env w) (fst f) s /\ fst d = fst f /\ de (snd f) (VStr s) = Done (snd d))
     \/ ((forall kv s, In kv (w_env w) -> ~ exposes p kv (fst f) s)
         /\ field_becomes (fun t x d => de t x = Done d) v0 f d)) fs l).
Proof.
  intros R R0 W T Np B B0 ND.
  assert (Uv : uniq v /\ mapv v).
  { apply (build_uniq w c _ skip v R); auto. intros n' l x I. apply in_app_iff in I as [I|[[= <- <-]|[]]]; [eauto|].
    destruct (env_layer_read w prefix p T Np) as (e & Re & _ & We & _). intros E. rewrite Re in E. now injection E as <-. }
  destruct Uv as [Uv Mv]. rewrite (struct_iff fs v ds ND Uv Mv).
  assert (Q : forall f d, field_becomes (fun t x d => de t x = Done d) v f d <->
    ((exists s, last_exposed p (w_env w) (fst f) s /\ fst d = fst f /\ de (snd f) (VStr s) = Done (snd d))
     \/ ((forall kv s, In kv (w_env w) -> ~ exposes p kv (fst f) s)
         /\ field_becomes (fun t x d => de t x = Done d) v0 f d))).
  { intros f d. destruct (env_overrides w c c0 r n prefix p v v0 skip R R0 W T Np B B0 (fst f)) as [O1 O2].
    destruct (exposed_or_not p (w_env w) (fst f) Np) as [[s X]|N].
    - destruct (O1 s X) as [Hs _]. split.
      + intros [E [(x & Hx & D)|(L & _)]]; [|now apply L in Hs].
        left. exists s. split; auto. split; auto. now rewrite <- (holds_fun v (fst f) x (VStr s)).
      + intros [(s' & X' & E & D)|(N & _)]; [|destruct (exposed_not_both _ _ _ _ X N)].
        split; auto. left. exists (VStr s). split; auto. now rewrite (last_exposed_fun p _ _ s s' Np X X').
    - destruct (O2 N) as [Q _]. split.
      + intros [E H]. right. split; auto. split; auto. destruct H as [(x & Hx & D)|(L & H)].
        * left. exists x. split; auto. now apply Q.
        * right. split; auto. intros x Hx. apply (L x). now apply Q.
      + intros [(s' & X' & _)|(_ & E & H)]; [destruct (exposed_not_both _ _ _ _ X' N)|].
        split; auto. destruct H as [(x & Hx & D)|(L & H)].
        * left. exists x. split; auto. now apply Q.
        * right. split; auto. intros x Hx. apply (L x). now apply Q. }
  split; intros (l & -> & F); exists l; (split; [reflexivity|]); (eapply Forall2_imp; [|exact F]); intros f d _ _; apply Q.
Qed.

(** A key no layer mentions keeps what it held. *)
Lemma build_list_lacks w skip k ls : (forall l x, In l ls -> layer_read w l = Ok x -> wf x /\ lacks x k) ->
  forall acc v, uniq acc -> mapv acc -> build_list w skip acc ls = Ok v ->
  forall x, holds v k x <-> holds acc k x.
Proof.
  induction ls as [|l ls IH]; intros Wl acc v Ua Ma; cbn; [intros E; injection E as <-; reflexivity|].
  assert (Wl' : forall l' x, In l' ls -> layer_read w l' = Ok x -> wf x /\ lacks x k) by (intros; eapply Wl; eauto; right; auto).
  destruct (layer_read w l) as [y|e] eqn:E.
  - destruct (Wl l y (or_introl eq_refl) E) as [Wy Ly]. apply wf_uniq in Wy. intros B x.
    rewrite (IH Wl' _ v (v_merge_uniq y acc Ua Wy) (v_merge_mapv acc y Ma) B x).
    destruct y as [| | | | | | | | |m] eqn:Ey; try (rewrite v_merge_noop by (intros [_ [? Q]]; discriminate); reflexivity).
    rewrite merge_holds; auto; [|eexists; reflexivity]. split; [|intros H; left; auto].
    intros [[_ X]|[[X _]|(a & b & _ & X & _)]]; auto; now apply Ly in X.
  - destruct skip; [now apply IH | discriminate].
Qed.

Lemma untouched_field w c n0 dv r skip v fs ds l k d :
  registered c ((n0, LMemory dv) :: r) ->
  round_trips (TStruct fs) -> has_type (TStruct fs) (DStruct ds) -> ~ data_wide (DStruct ds) -> ser (DStruct ds) = Done dv ->
  (forall n' l x, In (n', l) r -> layer_read w l = Ok x -> wf x /\ lacks x k) ->
  build_value w c skip = Ok v -> de (TStruct fs) v = Done (DStruct l) -> In (k, d) ds ->
  exists d', In (k, d') l /\ data_equiv d d'.
Proof.
  intros R RT HT NW S Wl B D Ik.
  assert (Md : exists m, dv = VMap m /\ exists x, ser d = Done x /\ mget k m = Some x).
  { cbn [ser] in S. unfold new_map in S. assert (NDd : NoDup (map fst ds)).
    { inversion RT; inversion HT; subst. congruence. }
    assert (M : exists m, dv = VMap m).
    { clear - S. revert S. generalize (@nil (str * value)) as acc. induction ds as [|[n d] ds IH]; intros acc S.
      - cbn in S. injection S as <-. eauto.
      - cbn in S. apply obind_done in S as (x & _ & S). cbn in S. exact (IH _ S). }
    destruct M as [m ->]. exists m. split; auto. apply (proj1 (ser_fields_holds _ _ _ _ NDd S) k d Ik). }
  destruct Md as (m & -> & x & Sx & Gx).
  assert (Um : uniq (VMap m)).
  { destruct (round_trip _ RT _ HT NW) as (y & Sy & Uy & _). rewrite S in Sy. now injection Sy as <-. }
  assert (Hx : holds (VMap m) k x) by (apply holds_mget; auto; now apply uniq_map in Um).
  rewrite (build_value_list w c _ skip R) in B. cbn [map snd build_list layer_read] in B.
  unfold new_map in B. rewrite v_merge_empty_l_eq in B; [|auto|eexists; reflexivity].
  assert (Wl' : forall l x, In l (map snd r) -> layer_read w l = Ok x -> wf x /\ lacks x k).
  { intros l' y Hl. apply in_map_iff in Hl as ([n' l''] & <- & Hin). eauto. }
  assert (Mv : mapv (VMap m)) by (eexists; reflexivity).
  assert (Hv := proj2 (build_list_lacks w skip k (map snd r) Wl' (VMap m) v Um Mv B x) Hx).
  destruct (build_list_uniq w skip (map snd r) (fun l x I E => proj1 (Wl' l x I E)) (VMap m) v Um Mv B) as [Uv Mv'].
  assert (NF : NoDup (map fst fs)) by (inversion RT; auto).
  apply struct_iff in D as (l' & [= ->] & F); auto.
  inversion HT as [| | | | | | | | | | | | |fs' ds' E1 E2| | | | |]; subst.
  assert (Ft : exists t, In (k, t) fs /\ has_type t d).
  { clear - E1 E2 Ik. revert ds E1 E2 Ik. induction fs as [|[n t] fs IH]; intros [|[n' d'] ds] E1 E2 Ik; try discriminate; [destruct Ik|].
    cbn in E1, E2. injection E1 as <- E1. inversion E2; subst. destruct Ik as [[= <- <-]|Ik]; [exists t; cbn; auto|].
    destruct (IH ds E1 H4 Ik) as (t' & I & H). exists t'. cbn; auto. }
  destruct Ft as (t & It & Hd).
  assert (RTt : round_trips t) by (inversion RT; eauto).
  assert (NWd : ~ data_wide d) by (intros X; apply NW; eapply DwStruct; eauto).
  destruct (round_trip t RTt d Hd NWd) as (x' & Sx' & _ & Sv). rewrite Sx in Sx'. injection Sx' as <-.
  destruct (Sv x (vequiv_refl x) (holds_uniq _ _ _ Uv Hv)) as (d' & Dd' & _ & Eq).
  destruct (Forall2_in_l _ _ _ _ F It) as ([k' e] & Ie & Ek & [(y & Hy & De)|(L & _)]); cbn [fst snd] in *; [|now apply L in Hv].
  subst k'. rewrite (holds_fun v k y x Uv Hy Hv), Dd' in De. injection De as <-. eauto.
Qed.

(** Text never becomes a sequence, tuple, map, struct or unit. *)
Definition compound (t : ty) : Prop :=
  match t with
  | TSeq _ | TTuple _ | TMap _ _ | TStruct _ | TTupleStruct _ _ | TUnit | TUnitStruct => True
  | _ => False
  end.
Lemma text_is_not_compound t s : compound t -> exists e, de t (VStr s) = Fail e.
Proof. destruct t; cbn; try tauto; intros _; eexists; reflexivity. Qed.

(** ** C79 *)
Lemma read_elsewhere tc p w w' l : same_but p w w' -> built_in tc l -> (forall q, l = LFile (toml_handler tc) q -> ~ same_file w p q) ->
  layer_read w' l = layer_read w l.
Proof.
  intros (F & _ & E & _ & R & _) B N. inversion B as [v|pre|q]; subst l; cbn [layer_read]; auto.
  - unfold env_layer_new. cbn [layer_read]. now rewrite E.
  - assert (Q := N q eq_refl). cbn [toml_handler fh_read]. unfold fs_exists, toml_read, fs_read_to_string.
    now rewrite (F q Q), R.
Qed.
Lemma build_list_replace w w' skip ls ls' : Forall2 (fun l l' => layer_read w' l = layer_read w l') ls ls' ->
  forall acc, build_list w' skip acc ls = build_list w skip acc ls'.
Proof.
  induction 1 as [|l l' ls ls' H F IH]; intros acc; cbn; auto. rewrite H.
  destruct (layer_read w l'); [apply IH|]. destruct skip; auto.
Qed.
Lemma write_back tc w w' c c' r1 n p r2 v s v' skip :
  registered c (r1 ++ (n, LFile (toml_handler tc) p) :: r2) ->
  registered c' (r1 ++ (n, LMemory v') :: r2) ->
  (forall n' l, In (n', l) (r1 ++ r2) -> built_in tc l /\ forall q, l = LFile (toml_handler tc) q -> ~ same_file w p q) ->
  get_layer c n = Some (LFile (toml_handler tc) p)
  /\ (layer_write w (LFile (toml_handler tc) p) v = (w', Ok tt) ->
      toml_to_string tc v = Ok s -> is_text s = true -> toml_from_str tc s = Ok v' -> w_can_read w p = true ->
      build_value w' c skip = build_value w c' skip).
Proof.
  intros R R' B. split.
  - unfold get_layer. rewrite (registered_get c _ n R). destruct R as (_ & ND & _).
    apply In_mget; auto. apply in_or_app; right; left; auto.
  - intros E S T P C. rewrite (build_value_list w' c _ skip R), (build_value_list w c' _ skip R').
    assert (Sb := proj1 (file_write_effect tc w p v w' _ E)).
    apply build_list_replace. rewrite !map_app. cbn [map snd]. apply Forall2_app; [|constructor].
    + assert (G : forall n' l, In (n', l) r1 -> layer_read w' l = layer_read w l).
      { intros n' l I. destruct (B n' l) as [Bl Nl]; [apply in_or_app; auto|]. eapply read_elsewhere; eauto. }
      clear - G. induction r1 as [|[a l] r1 IH]; cbn; constructor; [apply (G a); left; auto | apply IH; intros; eapply G; right; eauto].
    + cbn [layer_read].
      destruct (read_after_write tc w p v w' s v' E S T P p eq_refl C [] w') as [X _]; [constructor | intros ? ? [] | intros ? ? [] | exact X].
    + assert (G : forall n' l, In (n', l) r2 -> layer_read w' l = layer_read w l).
      { intros n' l I. destruct (B n' l) as [Bl Nl]; [apply in_or_app; auto|]. eapply read_elsewhere; eauto. }
      clear - G. induction r2 as [|[a l] r2 IH]; cbn; constructor; [apply (G a); left; auto | apply IH; intros; eapply G; right; eauto].
Qed.
Lemma failed_write_back tc w w' c r l v e skip :
  registered c r -> (forall n' l, In (n', l) r -> built_in tc l) -> built_in tc l ->
  layer_write w l v = (w', Err e) -> e <> BIo IoWriteFault -> build_value w' c skip = build_value w c skip.
Proof.
  intros R B Bl E Ne. rewrite !(build_value_list _ c r skip R). apply build_list_replace.
  assert (G : forall l', built_in tc l' -> layer_read w' l' = layer_read w l').
  { intros l' B'. inversion Bl as [x|pre|p]; subst l; cbn in E; try (injection E as <- _; reflexivity).
    destruct (file_write_effect tc w p v w' _ E) as [S F].
    assert (Ew : w' = w) by (destruct e as [[]| | |]; auto; now destruct Ne).
    subst w'. reflexivity. }
  clear - B G. induction r as [|[a l] r IH]; cbn; constructor; [apply G; eapply B; left; eauto | apply IH; intros; eapply B; right; eauto].
Qed.
