(** TOML files (C98, C99). *)
From Coq Require Import ZArith Bool String Lia Permutation.
From Coq Require Import List.
Import ListNotations.
From Verif.Model Require Import Text Num Flt Value Convert Serde Visitor Paths Finder World Merge Layers Toml.
From Verif.Spec Require Import Spec Containers Numerals EnvSpec SerdeSpec FloatSpec ShapeSpec VisitorSpec TomlSpec.
From Verif.Proofs Require Import Basics Conversions Utf8 SerProofs DeProofs SerdeMore Shape Merge VisitorProofs FormatTrip Files.
From Verif.Proofs Require Containers.
Local Open Scope Z_scope.

(** ** Documents as Values *)
Section TomlInd.
Variable P : toml_value -> Prop.
Hypothesis Hflat : forall t, match t with TvArr _ | TvTab _ => False | _ => True end -> P t.
Hypothesis Harr : forall l, (forall x, In x l -> P x) -> P (TvArr l).
Hypothesis Htab : forall m, (forall k x, In (k, x) m -> P x) -> P (TvTab m).
Fixpoint toml_ind' (t : toml_value) : P t.
Proof.
  destruct t as [| | | | |l|m]; try (apply Hflat; exact I).
  - apply Harr. induction l as [|a l IH]; intros x H; [destruct H|].
    destruct H as [<-|H]; [apply toml_ind' | apply IH, H].
  - apply Htab. induction m as [|[k0 a] m IH]; intros k x H; [destruct H|].
    destruct H as [E|H]; [| apply (IH k x H)].
    exact (eq_ind a P (toml_ind' a) x (f_equal snd E)).
Defined.
End TomlInd.

Fixpoint doc_value (t : toml_value) : value :=
  match t with
  | TvBool b => VBool b
  | TvInt z => VInt z
  | TvFloat f => VFloat f
  | TvStr s => VStr s
  | TvDate s => VMap [(date_key, VStr s)]
  | TvArr l => VArr (map doc_value l)
  | TvTab m => VMap (map (fun e => (fst e, doc_value (snd e))) m)
  end.

Lemma doc_events t : toml_events t = value_events (doc_value t).
Proof.
  induction t as [t F|l IH|m IH] using toml_ind'.
  - destruct t; cbn in F; try tauto; reflexivity.
  - cbn. f_equal. rewrite map_map. apply map_ext_in, IH.
  - cbn. f_equal. rewrite map_map. apply map_ext_in. intros [k x] H. cbn. now rewrite (IH k x H).
Qed.

Lemma In_doc_tab k y m : In (k, y) (map (fun e : str * toml_value => (fst e, doc_value (snd e))) m) <->
  exists x, In (k, x) m /\ y = doc_value x.
Proof.
  rewrite in_map_iff. split.
  - intros ([k' x] & E & H). cbn in E. injection E as <- <-. eauto.
  - intros (x & H & ->). exists (k, x). auto.
Qed.
Lemma fst_doc_tab m : map fst (map (fun e : str * toml_value => (fst e, doc_value (snd e))) m) = map fst m.
Proof. rewrite map_map. apply map_ext. reflexivity. Qed.

Lemma doc_plain t : toml_plain (doc_value t).
Proof.
  induction t as [t F|l IH|m IH] using toml_ind'.
  - destruct t; cbn in F; try tauto; constructor. intros k x [E|[]]; injection E as _ <-. constructor.
  - cbn. constructor. intros x H. apply in_map_iff in H as (t & <- & H). auto.
  - cbn. constructor. intros k x H. apply In_doc_tab in H as (t & H & ->). eauto.
Qed.
Lemma doc_wf t : proper_toml t -> wf (doc_value t).
Proof.
  induction t as [t F|l IH|m IH] using toml_ind'; intros H.
  - destruct t; cbn in F; try tauto; inversion H; subst; cbn [doc_value wf]; auto.
    + now apply in_range_fits.
    + apply wf_map. split; [repeat constructor; intros []|]. intros k x [E|[]]; injection E as <- <-. split; [reflexivity | assumption].
  - inversion H; subst. cbn [doc_value]. apply wf_arr. intros x Hx. apply in_map_iff in Hx as (t & <- & Ht). auto.
  - inversion H as [| | | | | |? D Q]; subst. cbn [doc_value]. apply wf_map. rewrite fst_doc_tab. split; auto.
    intros k x Hx. apply In_doc_tab in Hx as (t & Ht & ->). destruct (Q k t Ht). split; auto. eapply IH; eauto.
Qed.
Lemma doc_same t : forall t', same_toml t t' -> vequiv (doc_value t) (doc_value t').
Proof.
  induction t as [t F|l IH|m IH] using toml_ind'; intros t' H.
  - destruct t; cbn in F; try tauto; inversion H; subst; apply vequiv_refl.
  - inversion H as [| | | | |? r F|]; subst. cbn [doc_value]. constructor.
    clear H. induction F; cbn; constructor; [apply IH; cbn; auto | apply IHF; intros; apply IH; cbn; auto].
  - inversion H as [| | | | | |? n F1 F2]; subst. cbn [doc_value]. constructor.
    + intros k x Hx. apply In_doc_tab in Hx as (t & Ht & ->). destruct (F1 k t Ht) as (y & Hy & S).
      exists (doc_value y). split; [apply In_doc_tab; eauto | eauto].
    + intros k y Hy. apply In_doc_tab in Hy as (t & Ht & ->). destruct (F2 k t Ht) as (x & Hx & S).
      exists (doc_value x). split; [apply In_doc_tab; eauto | eauto].
Qed.
Lemma doc_map t : (exists m, t = TvTab m) -> mapv (doc_value t).
Proof. intros (m & ->). cbn. eexists; reflexivity. Qed.

(** ** Writing *)
Lemma items_ok {A} (item : A -> result toml_value toml_error) l r :
  toml_items item l = Ok r <-> Forall2 (fun x y => item x = Ok y) l r.
Proof.
  revert r. induction l as [|x l IH]; intros r.
  - cbn. split; [intros E; injection E as <-; constructor | intros F; inversion F; reflexivity].
  - change (toml_items item (x :: l)) with (rbind (item x) (fun y => rbind (toml_items item l) (fun r => Ok (y :: r)))).
    split.
    + intros E. apply rbind_ok in E as (y & E & E'). apply rbind_ok in E' as (r' & E' & E''). injection E'' as <-.
      constructor; auto. now apply IH.
    + intros F. inversion F as [|? y ? r' E F']; subst. rewrite E. cbn. apply IH in F'. rewrite F'. reflexivity.
Qed.

Lemma entries_strict m r : toml_entries false (toml_item false) (map entry_call m) = Ok r ->
  forall k x, In (k, x) m -> x = VNone \/ exists y, toml_item false (value_calls x) = Ok y.
Proof.
  revert r. induction m as [|[k x] m IH]; intros r E k' x' I; [destruct I|].
  cbn [map] in E. change (toml_entries false (toml_item false) (entry_call (k, x) :: map entry_call m)) with
      (match toml_item false (value_calls x) with
       | Ok y => rbind (toml_entries false (toml_item false) (map entry_call m)) (fun r => Ok ((k, y) :: r))
       | Err UnsupportedNone => if false || is_dnone (value_calls x) then toml_entries false (toml_item false) (map entry_call m) else Err UnsupportedNone
       | Err e => Err e
       end) in E.
  destruct (toml_item false (value_calls x)) as [y|e] eqn:Ex.
  - apply rbind_ok in E as (r' & E & _). destruct I as [I|I]; [injection I as <- <-; eauto | eauto].
  - destruct e; try discriminate E. cbn [orb] in E. destruct (is_dnone (value_calls x)) eqn:Dx; [|discriminate E].
    destruct I as [I|I]; [|eauto]. injection I as <- <-. left. destruct x; try discriminate Dx. reflexivity.
Qed.

Lemma calls_map m : value_calls (VMap m) = DMap (map entry_call m).
Proof. reflexivity. Qed.

(** What is written of a writable Value. *)
Definition image (v : value) (t : toml_value) : Prop :=
  same_numbers true v (doc_value t) /\ proper_toml t /\ (mapv v <-> exists m, t = TvTab m).

Lemma fits_I64 z : fits I64 z <-> - 2 ^ 63 <= z <= 2 ^ 63 - 1.
Proof.
  unfold fits. cbn [is_signed bits]. change (64 - 1) with 63. split.
  - intros [A _]. specialize (A I). lia.
  - intros H. split; [intros _; lia | tauto].
Qed.
Lemma fits_U64 z : fits U64 z <-> 0 <= z <= 2 ^ 64 - 1.
Proof.
  unfold fits. cbn [is_signed bits]. split.
  - intros [_ A]. specialize (A (fun x => x)). lia.
  - intros H. split; [tauto | intros _; lia].
Qed.
Lemma int_sn z v src : int_value v z src -> same_numbers true v (VInt z).
Proof. intros I. eapply SnInt; [exact I | constructor]. Qed.

Lemma written v : writable v -> wf v -> exists t,
  (forall lenient, toml_item lenient (value_calls v) = Ok t) /\ image v t.
Proof.
  induction v as [v S|l IH|m IH] using value_ind'; intros Wr W.
  - assert (N : forall t, (forall m, t <> TvTab m) -> (mapv v <-> exists m, t = TvTab m)).
    { intros t N. split; [intros (m & ->); cbn in S; tauto | intros (m & ->); destruct (N m eq_refl)]. }
    destruct v; cbn in S; try tauto; inversion Wr; subst.
    + exists (TvBool b). split; [reflexivity|]. split; [constructor|]. split; [constructor|]. apply N. discriminate.
    + cbn in W. apply in_range_fits in W. exists (TvInt z). split.
      * intros r. cbn. rewrite (proj2 (Z.leb_le _ _)); [reflexivity|]. now apply fits_I64 in W.
      * split; [eapply int_sn; constructor|]. split; [now constructor|]. apply N. discriminate.
    + cbn in W. apply in_range_fits in W. exists (TvInt z). split.
      * intros r. cbn [value_calls toml_item]. rewrite (proj2 (Z.leb_le _ _)) by assumption. reflexivity.
      * split; [eapply int_sn; constructor|]. split; [|apply N; discriminate]. constructor. apply fits_I64. apply fits_U64 in W. lia.
    + exists (TvFloat f). split; [reflexivity|]. split; [constructor|]. split; [now constructor|]. apply N. discriminate.
    + exists (TvStr s). split; [reflexivity|]. split; [constructor|]. split; [now constructor|]. apply N. discriminate.
  - inversion Wr as [| | | | |? Wl|]; subst. pose proof (proj1 (wf_arr _) W) as W'.
    assert (G : exists ts, Forall2 (fun x t => (forall lenient, toml_item lenient (value_calls x) = Ok t) /\ image x t) l ts).
    { clear W Wr. induction l as [|x l IHl]; [exists []; constructor|].
      destruct (IH x (or_introl eq_refl)) as (t & T); [apply Wl; now left | apply W'; now left|].
      destruct IHl as (ts & F); [intros; apply IH; cbn; auto | intros; apply Wl; cbn; auto | intros; apply W'; cbn; auto|].
      exists (t :: ts). constructor; auto. }
    destruct G as (ts & F). exists (TvArr ts). split.
    + intros r. cbn [value_calls toml_item]. rewrite (proj2 (items_ok (toml_item r) (map value_calls l) ts)); [reflexivity|].
      clear - F. induction F as [|x t l ts [A _] F IH]; cbn; constructor; auto.
    + split; [|split; [|split; [intros (? & E); discriminate E | intros (? & E); discriminate E]]].
      * cbn [doc_value]. constructor. clear - F. induction F as [|x t l ts [_ [A _]] F IH]; cbn; constructor; auto.
      * constructor. clear - F. induction F as [|x t l ts [_ (_ & A & _)] F IH]; [intros ? []|]. intros y [<-|H]; auto.
  - inversion Wr as [| | | | | |? Wm]; subst. apply wf_map in W as [ND W].
    assert (H : forall r k x, In (k, x) m -> x = VNone \/ exists y, toml_item r (value_calls x) = Ok y).
    { intros r k x I. destruct (Wm k x I) as [->|Wx]; [auto|]. right. destruct (IH k x I Wx) as (t & T & _); [eapply W; eauto | eauto]. }
    assert (G : exists ts, (forall r, toml_entries r (toml_item r) (map entry_call m) = Ok ts)
       /\ (forall k y, In (k, y) ts <-> exists x, In (k, x) m /\ toml_item true (value_calls x) = Ok y)
       /\ NoDup (map fst ts)).
    { clear - IH Wm W ND. induction m as [|[k x] m IHm].
      - exists []. split; [reflexivity|]. split; [|constructor]. intros k y. split; [intros [] | intros (? & [] & _)].
      - inversion ND as [|? ? Nk ND']; subst.
        destruct IHm as (ts & E & B & D); auto; try (intros; first [eapply IH | eapply Wm | eapply W]; cbn; eauto; fail).
        assert (N : ~ In k (map fst ts)).
        { intros I. apply Nk. apply in_map_iff in I as ([k' y] & <- & I). apply B in I as (x' & I & _). cbn. now apply (in_map fst) in I. }
        assert (ST : forall r, toml_entries r (toml_item r) (map entry_call ((k, x) :: m)) =
          (match toml_item r (value_calls x) with
           | Ok y => rbind (toml_entries r (toml_item r) (map entry_call m)) (fun r => Ok ((k, y) :: r))
           | Err UnsupportedNone => if r || is_dnone (value_calls x) then toml_entries r (toml_item r) (map entry_call m) else Err UnsupportedNone
           | Err e => Err e
           end)) by reflexivity.
        destruct (Wm k x (or_introl eq_refl)) as [->|Wx].
        + exists ts. split; [|split; [|auto]].
          * intros r. rewrite ST. cbn [value_calls toml_item is_dnone]. rewrite orb_true_r. apply E.
          * intros k' y. rewrite B. split.
            -- intros (x & I & Ex). exists x; split; auto. now right.
            -- intros (x & [I|I] & Ex); [injection I as <- <-; discriminate Ex | eauto].
        + destruct (IH k x (or_introl eq_refl) Wx) as (t & T & _); [eapply W; now left|].
          exists ((k, t) :: ts). split; [|split].
          * intros r. rewrite ST, T, E. reflexivity.
          * intros k' y'. split.
            -- intros [I|I]; [injection I as <- <-; exists x; split; [now left | auto] |].
               apply B in I as (x' & I & Ex). exists x'. split; [now right | auto].
            -- intros (x' & [I|I] & Ex); [injection I as <- <-; left; rewrite T in Ex; injection Ex as <-; reflexivity|]. right. apply B. eauto.
          * cbn. constructor; auto. }
    destruct G as (ts & E & B & D). exists (TvTab ts). split.
    + intros r. rewrite calls_map. cbn [toml_item]. rewrite E. reflexivity.
    + assert (Q : forall k x t, In (k, x) m -> toml_item true (value_calls x) = Ok t -> image x t).
      { intros k x t I Et. destruct (Wm k x I) as [->|Wx]; [discriminate Et|].
        destruct (IH k x I Wx) as (t' & T & Im); [eapply W; eauto|]. rewrite T in Et. injection Et as <-. exact Im. }
      split; [|split; [|split; [intros _; eauto | intros _; eexists; reflexivity]]].
      * cbn [doc_value]. constructor.
        -- intros k x I. destruct (Wm k x I) as [->|Wx].
           ++ right. split; auto. split; auto. rewrite fst_doc_tab. intros J. apply in_map_iff in J as ([k' y] & <- & J).
              cbn [fst] in *. apply B in J as (x & J & Ex).
              apply (In_mget _ _ _ ND) in I, J. rewrite I in J. injection J as <-. discriminate Ex.
           ++ left. destruct (IH k x I Wx) as (t & T & Im); [eapply W; eauto|].
              exists (doc_value t). split; [apply In_doc_tab; exists t; split; auto; apply B; eauto | apply Im].
        -- intros k y J. apply In_doc_tab in J as (t & J & ->). apply B in J as (x & J & Ex). exists x. split; auto. eapply Q; eauto.
      * constructor; auto. intros k t J. apply B in J as (x & J & Ex). split; [eapply W; eauto | eapply Q; eauto].
Qed.

Lemma strict_writable v : forall t, toml_item false (value_calls v) = Ok t -> writable v.
Proof.
  induction v as [v S|l IH|m IH] using value_ind'; intros t E.
  - destruct v; cbn in S; try tauto; cbn [value_calls toml_item] in E; try discriminate E; try constructor.
    destruct (Z.leb_spec z (2 ^ 63 - 1)); [assumption | discriminate E].
  - cbn [value_calls toml_item] in E. apply rbind_ok in E as (r & E & _). apply items_ok in E. constructor.
    intros x Hx. apply In_nth_error in Hx as (i & Hi). 
    destruct (nth_error_Forall2_l _ _ _ i (value_calls x) E) as (y & _ & Ey); [now apply map_nth_error|].
    eapply IH; eauto. eapply nth_error_In; eauto.
  - rewrite calls_map in E. cbn [toml_item] in E. apply rbind_ok in E as (r & E & _). constructor.
    intros k x Hx. destruct (entries_strict m r E k x Hx) as [->|(y & Ey)]; eauto.
Qed.

(** ** to_string and from_str *)
Lemma written_document r ts v : writable v -> mapv v -> wf v -> exists m,
  toml_to_string (toml_codec r ts) v = Ok (ts_print ts (TvTab m)) /\ image v (TvTab m)
  /\ toml_document r (value_calls v) = Ok (TvTab m).
Proof.
  intros Wr M W. destruct (written v Wr W) as (t & T & Im). assert (M' := M). apply (proj2 (proj2 Im)) in M' as (m & ->).
  exists m. assert (D : toml_document r (value_calls v) = Ok (TvTab m)) by (unfold toml_document; now rewrite T).
  split; [|auto]. cbn. unfold format_to_string. cbn. now rewrite D.
Qed.
Lemma strict_ok ts v s : toml_to_string (toml_codec false ts) v = Ok s -> writable v /\ mapv v.
Proof.
  cbn. unfold format_to_string. cbn. unfold toml_document. destruct (toml_item false (value_calls v)) as [t|] eqn:E; [|discriminate].
  intros H. split; [eapply strict_writable; eauto|].
  destruct v as [| | | | | | | |l|m]; cbn [value_calls toml_item] in E; try discriminate E;
    try (injection E as <-; discriminate H); [..|eexists; reflexivity].
  - destruct (z <=? 2 ^ 63 - 1); [injection E as <-; discriminate H | discriminate E].
  - destruct (z <=? 2 ^ 63 - 1); [injection E as <-; discriminate H | discriminate E].
  - apply rbind_ok in E as (? & _ & E). injection E as <-. discriminate H.
Qed.

Lemma loads_doc t : forall v, vequiv (doc_value t) v -> loads_as t v.
Proof.
  induction t as [t F|l IH|m IH] using toml_ind'; intros v H.
  - destruct t; cbn in F; try tauto; cbn [doc_value] in H;
      try (inversion H; subst; constructor; fail).
    inversion H as [? S E|?|? n F1 F2]; [subst; destruct S|]. subst. apply LaDate.
    change (lit "$__toml_private_datetime") with date_key. revert F1 F2. clear. generalize date_key. intros dk F1 F2 k y. split.
    + intros I. destruct (F2 k y I) as (x & [I'|[]] & V). injection I' as <- <-. inversion V; subst. auto.
    + intros (-> & ->). destruct (F1 dk (VStr s) (or_introl eq_refl)) as (y & I & V). inversion V; subst. auto.
  - cbn [doc_value] in H. inversion H as [? S E|? r F|]; [subst; destruct S|]. subst. constructor.
    clear H. revert r F. induction l as [|x l IHl]; intros r F; inversion F; subst; constructor; [apply IH; cbn; auto | apply IHl; auto; intros; apply IH; cbn; auto].
  - cbn [doc_value] in H. inversion H as [? S E|?|? n F1 F2]; [subst; destruct S|]. subst. constructor.
    + intros k x I. destruct (F1 k (doc_value x)) as (y & J & V); [apply In_doc_tab; eauto|]. eauto.
    + intros k y I. destruct (F2 k y I) as (x & J & V). apply In_doc_tab in J as (t & J & ->). eauto.
Qed.

Lemma own_keeps v : wf v -> keeps_numbers false (value_calls v) (value_events v).
Proof.
  induction v as [v S|l IH|m IH] using value_ind'; intros W.
  - destruct v; cbn in S; try tauto; constructor; now apply in_range_fits.
  - pose proof (proj1 (wf_arr _) W) as W'. cbn. constructor.
    clear W. induction l as [|x l IHl]; [constructor|]. cbn. constructor; [apply IH; [now left | apply W'; now left]|].
    apply IHl; [intros; apply IH; auto; now right | intros; apply W'; now right].
  - apply wf_map in W as [ND W]. cbn. eapply KnMap; [reflexivity|]. clear ND.
    induction m as [|[k x] m IHm]; [constructor|]. cbn. constructor; [constructor | apply (IH k x); [now left | apply (W k x); now left] |].
    apply IHm; [intros k' x' I Wx; apply (IH k' x'); auto; now right | intros k' x' I; apply (W k' x'); now right].
Qed.
Lemma load_document r ts s t : ts_parse ts s = Ok t -> proper_toml t ->
  exists v, toml_from_str (toml_codec r ts) s = Ok v /\ vequiv (doc_value t) v /\ wf v.
Proof.
  intros P Pr. cbn. unfold format_from_str. cbn. rewrite P.
  destruct (visit_own (doc_value t)) as (v & E & V); [apply wf_uniq, doc_wf, Pr|]. rewrite <- doc_events in E.
  exists v. split; auto. split; auto.
  destruct (keeps_alike false (doc_value t) (toml_events t)) as (v' & E' & W & _); [now apply doc_wf | rewrite doc_events; now apply own_keeps, doc_wf|].
  congruence.
Qed.
Lemma load_inv r ts s v : toml_from_str (toml_codec r ts) s = Ok v -> exists t, ts_parse ts s = Ok t.
Proof. cbn. unfold format_from_str. cbn. destruct (ts_parse ts s); [eauto | discriminate]. Qed.

Lemma plain_equiv v : forall v', vequiv v v' -> toml_plain v -> toml_plain v'.
Proof.
  induction v as [v S|l IH|m IH] using value_ind'; intros v' E P.
  - inversion E; subst; cbn in S; tauto.
  - inversion E as [? S E'|? r F|]; [subst; destruct S|]. subst. inversion P as [| | | |? Pl|]; subst. constructor.
    intros y Hy. apply In_nth_error in Hy as (i & Hi). destruct (nth_error_Forall2_r _ _ _ _ _ F Hi) as (x & Hx & V).
    apply nth_error_In in Hx. eauto.
  - inversion E as [? S E'|?|? n F1 F2]; [subst; destruct S|]. subst. inversion P as [| | | | |? Pm]; subst. constructor.
    intros k y Hy. destruct (F2 k y Hy) as (x & Hx & V). eauto.
Qed.
Lemma sn_equiv_r drop v : forall a b, same_numbers drop v a -> vequiv a b -> same_numbers drop v b.
Proof.
  induction v as [v S|l IH|m IH] using value_ind'; intros a b H E.
  - inversion H as [|?|? ? z src src' I I'|?|?|? ? F|? ? F1 F2]; subst; cbn in S; try tauto;
      try (inversion E; subst; exact H).
    assert (b = a) as ->; [inversion I'; subst; inversion E; subst; reflexivity | exact H].
  - inversion H as [| |? ? ? ? ? I| | |? r F|]; subst; [inversion I|]. inversion E as [? S E'|? r' F'|]; [subst; destruct S|]. subst.
    constructor. clear H E. revert r r' F F'. induction l as [|x l IHl]; intros r r' F F'; inversion F; subst; inversion F'; subst; constructor.
    + eapply IH; cbn; eauto.
    + eapply IHl; eauto. intros; eapply IH; cbn; eauto.
  - inversion H as [| |? ? ? ? ? I| | | |? n F1 F2]; subst; [inversion I|]. inversion E as [? S E'|?|? n' G1 G2]; [subst; destruct S|]. subst.
    constructor.
    + intros k x Hx. destruct (F1 k x Hx) as [(y & Hy & V)|(D & -> & N)].
      * left. destruct (G1 k y Hy) as (z & Hz & V'). exists z. split; eauto.
      * right. repeat split; auto. intros J. apply N. apply in_map_iff in J as ([k' z] & <- & J).
        destruct (G2 _ _ J) as (y & Hy & _). now apply (in_map fst) in Hy.
    + intros k z Hz. destruct (G2 k z Hz) as (y & Hy & V). destruct (F2 k y Hy) as (x & Hx & V'). exists x. split; eauto.
Qed.

(** ** Plain Values *)
Lemma plain_writable v : toml_plain v -> writable v.
Proof.
  induction v as [v S|l IH|m IH] using value_ind'; intros P; inversion P; subst; cbn in *; try tauto; constructor; auto.
  intros k x H. right. eauto.
Qed.
Lemma plain_sn v : forall v', toml_plain v -> toml_plain v' -> same_numbers true v v' -> vequiv v v'.
Proof.
  induction v as [v S|l IH|m IH] using value_ind'; intros v' P P' H.
  - inversion H as [|?|? ? z src src' I I'|?|?|? ? F|? ? F1 F2]; subst; cbn in S; try tauto; try apply vequiv_refl.
    inversion I; subst; inversion P; subst. inversion I'; subst; inversion P'; subst. apply vequiv_refl.
  - inversion H as [| |? ? ? ? ? I| | |? r F|]; subst; [inversion I|]. inversion P as [| | | |? Pl|]; subst. inversion P' as [| | | |? Pr|]; subst.
    constructor. clear H P P'. revert r F Pr. induction l as [|x l IHl]; intros r F Pr; inversion F; subst; constructor.
    + apply IH; auto; [now left | apply Pl; now left | apply Pr; now left].
    + apply IHl; auto; [intros; apply IH; cbn; auto | intros; apply Pl; cbn; auto | intros; apply Pr; cbn; auto].
  - inversion H as [| |? ? ? ? ? I| | | |? n F1 F2]; subst; [inversion I|]. inversion P as [| | | | |? Pl]; subst. inversion P' as [| | | | |? Pr]; subst.
    constructor.
    + intros k x Hx. destruct (F1 k x Hx) as [(y & Hy & V)|(_ & -> & _)]; [|specialize (Pl k VNone Hx); inversion Pl].
      exists y. split; eauto.
    + intros k y Hy. destruct (F2 k y Hy) as (x & Hx & V). exists x. split; eauto.
Qed.
Lemma vequiv_sn drop v : forall v', vequiv v v' -> same_numbers drop v v'.
Proof.
  induction v as [v S|l IH|m IH] using value_ind'; intros v' E.
  - inversion E; subst; try (cbn in S; tauto). destruct v'; cbn in S; try tauto; try constructor; eapply SnInt; constructor.
  - inversion E as [? S E'|? r F|]; [subst; destruct S|]. subst. constructor.
    clear E. revert r F. induction l as [|x l IHl]; intros r F; inversion F; subst; constructor; [apply IH; cbn; auto | apply IHl; auto; intros; apply IH; cbn; auto].
  - inversion E as [? S E'|?|? n F1 F2]; [subst; destruct S|]. subst. constructor.
    + intros k x Hx. destruct (F1 k x Hx) as (y & Hy & V). left. eauto.
    + intros k y Hy. destruct (F2 k y Hy) as (x & Hx & V). eauto.
Qed.
Lemma sn_refl drop v : same_numbers drop v v.
Proof. apply vequiv_sn, vequiv_refl. Qed.

(** Loaded again. *)
Lemma entries_inv r (item : data -> result toml_value toml_error) m : forall ts, toml_entries r item (map entry_call m) = Ok ts ->
  forall k y, In (k, y) ts -> exists x, In (k, x) m /\ item (value_calls x) = Ok y.
Proof.
  induction m as [|[k x] m IH]; intros ts E k' y I.
  - cbn in E. injection E as <-. destruct I.
  - cbn [map] in E. change (toml_entries r item (entry_call (k, x) :: map entry_call m)) with
      (match item (value_calls x) with
       | Ok y => rbind (toml_entries r item (map entry_call m)) (fun r => Ok ((k, y) :: r))
       | Err UnsupportedNone => if r || is_dnone (value_calls x) then toml_entries r item (map entry_call m) else Err UnsupportedNone
       | Err e => Err e
       end) in E.
    destruct (item (value_calls x)) as [z|e] eqn:Ex.
    + apply rbind_ok in E as (r' & E & E'). injection E' as <-. destruct I as [[= <- <-]|I]; [exists x; split; [now left | auto]|].
      destruct (IH r' E k' y I) as (x' & I' & E'). exists x'. split; [now right | auto].
    + destruct e; try discriminate E. destruct (r || is_dnone (value_calls x)); [|discriminate E].
      destruct (IH ts E k' y I) as (x' & I' & E'). exists x'. split; [now right | auto].
Qed.
Fixpoint vdepth (v : value) : nat :=
  match v with
  | VArr l => S (fold_right (fun x a => Nat.max (vdepth x) a) O l)
  | VMap m => S (fold_right (fun e a => Nat.max (vdepth (snd e)) a) O m)
  | _ => O
  end.
Lemma shallow_depth v : forall n, (vdepth v <= n)%nat -> shallow n v.
Proof.
  induction v as [v S|l IH|m IH] using value_ind'; intros n H.
  - apply ShFlat; intros ? ->; cbn in S; tauto.
  - destruct n as [|n]; [cbn in H; lia|]. apply ShArr. intros x Hx. apply IH; auto. cbn [vdepth] in H. apply le_S_n in H.
    revert x Hx. clear IH. induction l as [|y l IHl]; intros x []; cbn in H; [subst; lia | apply IHl; auto; lia].
  - destruct n as [|n]; [cbn in H; lia|]. apply ShMap. intros k x Hx. eapply IH; eauto. cbn [vdepth] in H. apply le_S_n in H.
    revert k x Hx. clear IH. induction m as [|[k' y] m IHm]; intros k x []; cbn in H; [injection H0 as <- <-; lia | eapply IHm; eauto; lia].
Qed.
Lemma shallow_plain r v : forall n t, shallow n v -> toml_item r (value_calls v) = Ok t -> plain_doc n t.
Proof.
  induction v as [v S|l IH|m IH] using value_ind'; intros n t Sh E.
  - destruct v; cbn in S; try tauto; cbn [value_calls toml_item] in E; try discriminate E;
      try (injection E as <-; constructor); (destruct (z <=? 2 ^ 63 - 1); [injection E as <-; constructor | discriminate E]).
  - inversion Sh as [? ? N _|n' ? H|]; subst; [destruct (N l eq_refl)|]. cbn [value_calls toml_item] in E.
    apply rbind_ok in E as (r' & E & E'). injection E' as <-. apply items_ok in E. constructor. intros y Hy.
    apply In_nth_error in Hy as (i & Hi). destruct (nth_error_Forall2_r _ _ _ _ _ E Hi) as (c & Hc & Ec).
    apply nth_error_In in Hc. apply in_map_iff in Hc as (x & <- & Hx). eapply IH; eauto.
  - inversion Sh as [? ? _ N| |n' ? H]; subst; [destruct (N m eq_refl)|]. rewrite calls_map in E. cbn [toml_item] in E.
    apply rbind_ok in E as (r' & E & E'). injection E' as <-. constructor. intros k y Hy.
    destruct (entries_inv _ _ _ _ E k y Hy) as (x & Hx & Ex). eapply IH; eauto.
Qed.
Lemma document_plain r v n t : shallow n v -> toml_document r (value_calls v) = Ok t -> plain_doc n t.
Proof.
  unfold toml_document. intros Sh E. destruct (toml_item r (value_calls v)) as [t'|] eqn:I; [|discriminate E].
  destruct t'; try discriminate E. injection E as <-. eapply shallow_plain; eauto.
Qed.

Lemma trip lim r ts v : wf v -> mapv v -> writable v -> shallow lim v ->
  (forall m, proper_toml (TvTab m) -> plain_doc lim (TvTab m) -> reads_back ts (TvTab m)) ->
  exists s v', toml_to_string (toml_codec r ts) v = Ok s /\ is_text s = true /\ toml_from_str (toml_codec r ts) s = Ok v'
    /\ wf v' /\ mapv v' /\ toml_plain v' /\ same_numbers true v v'.
Proof.
  intros W M Wr Sh RB. destruct (written_document r ts v Wr M W) as (m & E & (Sn & Pr & _) & D).
  destruct (RB m Pr (document_plain _ _ _ _ Sh D)) as (T & t' & P & S & Pr').
  destruct (load_document r ts _ t' P Pr') as (v' & L & V & W').
  assert (V' : vequiv (doc_value (TvTab m)) v') by (eapply vequiv_trans; [apply doc_same; eauto | exact V]).
  exists (ts_print ts (TvTab m)), v'. split; auto. split; auto. split; auto. split; auto.
  split; [eapply vequiv_mapv; [exact V'|]; apply doc_map; eauto|].
  split; [eapply plain_equiv; [exact V'|]; apply doc_plain|]. eapply sn_equiv_r; eauto.
Qed.
