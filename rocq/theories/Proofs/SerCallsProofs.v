(** Proofs about hand-written [Serialize] implementations (C97). *)
From Coq Require Import ZArith Bool String Lia Permutation.
From Coq Require Import List.
Import ListNotations.
From Verif.Model Require Import Text Num Flt Value Convert Serde SerCalls.
From Verif.Spec Require Import Spec Containers SerCallsSpec.
From Verif.Proofs Require Import Basics Containers.
Local Open Scope nat_scope.

Section Run.
Context {S C : Type} (step : S -> C -> reply * S).
Lemma run_app s cs ds rs s1 : run_calls step s cs = (rs, s1) -> ~ In RPanic rs ->
  run_calls step s (cs ++ ds) = (let '(rs', s2) := run_calls step s1 ds in (rs ++ rs', s2)).
Proof.
  revert s rs. induction cs as [|c cs IH]; cbn [run_calls app]; intros s rs E N.
  - injection E as <- <-. now destruct (run_calls step s ds).
  - destruct (step s c) as [r s'] eqn:Es. destruct r.
    + destruct (run_calls step s' cs) as [rs0 s0] eqn:E0. injection E as <- <-.
      rewrite (IH s' rs0 E0) by (intros H; apply N; now right). now destruct (run_calls step s0 ds).
    + destruct (run_calls step s' cs) as [rs0 s0] eqn:E0. injection E as <- <-.
      rewrite (IH s' rs0 E0) by (intros H; apply N; now right). now destruct (run_calls step s0 ds).
    + injection E as <- <-. exfalso; apply N; now left.
Qed.
Lemma run_panic s cs ds : In RPanic (fst (run_calls step s cs)) -> run_calls step s (cs ++ ds) = run_calls step s cs.
Proof.
  revert s. induction cs as [|c cs IH]; cbn [run_calls app]; intros s H; [destruct H|].
  destruct (step s c) as [r s']. destruct r; [ | | reflexivity].
  - destruct (run_calls step s' cs) as [rs0 s0] eqn:E0. destruct H as [H|H]; [discriminate|].
    rewrite IH, E0; [reflexivity|]. now rewrite E0.
  - destruct (run_calls step s' cs) as [rs0 s0] eqn:E0. destruct H as [H|H]; [discriminate|].
    rewrite IH, E0; [reflexivity|]. now rewrite E0.
Qed.
Lemma run_length s cs rs s1 : run_calls step s cs = (rs, s1) -> ~ In RPanic rs -> List.length rs = List.length cs.
Proof.
  revert s rs. induction cs as [|c cs IH]; cbn [run_calls]; intros s rs E N.
  - now injection E as <- <-.
  - destruct (step s c) as [r s']. destruct r.
    + destruct (run_calls step s' cs) as [rs0 s0] eqn:E0. injection E as <- <-.
      cbn. f_equal. apply (IH s' rs0 E0). intros H; apply N; now right.
    + destruct (run_calls step s' cs) as [rs0 s0] eqn:E0. injection E as <- <-.
      cbn. f_equal. apply (IH s' rs0 E0). intros H; apply N; now right.
    + injection E as <- <-. exfalso; apply N; now left.
Qed.
End Run.

(** ** Maps *)
Lemma pending_nil k : ~ pending [] k.
Proof. intros (b & a & c & E & _). destruct b; discriminate. Qed.
Lemma key_text_fun arg k k' : key_text arg k -> key_text arg k' -> k = k'.
Proof. intros (v & -> & E) (v' & E1 & E'). injection E1 as <-. congruence. Qed.

(** One more call. *)
Lemma pending_snoc cs c k : pending (cs ++ [c]) k <->
  (exists arg, c = SKey arg /\ key_text arg k) \/
  (pending cs k /\ exists arg, c = SKey arg /\ forall k', ~ key_text arg k').
Proof.
  split.
  - intros (b & a & t & E & K & T). destruct (exists_last (l := SKey a :: t) ltac:(discriminate)) as (t' & z & Et).
    rewrite Et, app_assoc in E. apply app_inj_tail in E as [E ->]. destruct t' as [|y t'].
    + cbn in Et. injection Et as <- ->. left. eauto.
    + cbn in Et. injection Et as <- ->. right. split.
      * exists b, a, t'. split; [exact E|]. split; [exact K|]. intros c0 H. apply T, in_or_app. now left.
      * apply T, in_or_app. right; now left.
  - intros [(arg & -> & K)|((b & a & t & -> & K & T) & arg & -> & NK)].
    + exists cs, arg, []. split; [reflexivity|]. split; [exact K|]. intros ? [].
    + exists b, a, (t ++ [SKey arg]). split; [now rewrite <- app_assoc|]. split; [exact K|].
      intros c H. apply in_app_or in H as [H|[<-|[]]]; [now apply T|]. eauto.
Qed.

Lemma set_calls_app v h h' : fst (set_calls v (h ++ h')) = fst (set_calls (fst (set_calls v h)) h').
Proof.
  revert v. induction h as [|[k x] h IH]; intros v; [reflexivity|]. cbn [app set_calls].
  destruct (v_set v k x) as [v1 r]. specialize (IH v1). destruct (set_calls v1 (h ++ h')), (set_calls v1 h). cbn in *. exact IH.
Qed.
Lemma set_calls_is_map h : exists m, fst (set_calls new_map h) = VMap m.
Proof. destruct (set_calls_map [] h) as (m & E & _). exists m. unfold new_map. now rewrite E. Qed.
Lemma set_calls_holds h : forall k x, holds (fst (set_calls new_map h)) k x <-> last_binding h k x.
Proof.
  intros k x. destruct (value_map_spec h) as (v & E & _ & _ & _ & H & _).
  unfold value_map_macro, new_map in E. rewrite value_map_loop_ok in E. injection E as <-. symmetry. apply H.
Qed.

Definition minv (cs : list smap_call) (sm : ser_map) : Prop :=
  (forall k, sm_key sm = Some k <-> pending cs k) /\
  exists h, writes cs h /\ sm_map sm = fst (set_calls new_map h).

Lemma minv_none cs sm : minv cs sm -> sm_key sm = None -> forall k, ~ pending cs k.
Proof. intros [P _] E k H. apply P in H. congruence. Qed.

Lemma smap_step_ok cs sm c r sm' : minv cs sm -> smap_step sm c = (r, sm') ->
  answer cs c r /\ (r <> RPanic -> minv (cs ++ [c]) sm').
Proof.
  intros I E. pose proof I as [P (h & W & M)]. destruct c as [arg|arg]; cbn [smap_step] in E.
  - destruct arg as [v|e|]; cbn [obind] in E.
    + destruct (into_string v) as [k|e] eqn:K; cbn [of_result] in E; injection E as <- <-.
      * split; [apply (AnKey _ _ k); exists v; split; [reflexivity | exact K]|]. intros _. split.
        -- cbn [sm_key]. intros k'. rewrite pending_snoc. split.
           ++ intros E; injection E as <-. left. eexists. split; [reflexivity|]. exists v; split; [reflexivity | exact K].
           ++ intros [(a & E & Kt)|(_ & a & E & NK)]; injection E as <-.
              ** f_equal. refine (key_text_fun _ _ _ _ Kt). exists v; split; [reflexivity | exact K].
              ** exfalso. apply (NK k). exists v; split; [reflexivity | exact K].
        -- exists h. split; [apply WrOther; [exact W | intros; discriminate]|]. exact M.
      * split; [apply AnKeyNoText; exact K|]. intros _. split.
        -- intros k'. rewrite pending_snoc, P. split.
           ++ intros H. right. split; [exact H|]. eexists. split; [reflexivity|]. intros k2 (v' & E & K'). injection E as <-. congruence.
           ++ intros [(a & E & (v' & -> & K'))|(H & _)]; [injection E as <-; congruence | exact H].
        -- exists h. split; [apply WrOther; [exact W | intros; discriminate]|]. exact M.
    + injection E as <- <-. split; [apply AnKeyFails|]. intros _. split.
      * intros k'. rewrite pending_snoc, P. split.
        -- intros H. right. split; [exact H|]. eexists. split; [reflexivity|]. intros k2 (v' & E & K'). discriminate.
        -- intros [(a & E & (v' & -> & K'))|(H & _)]; [discriminate | exact H].
      * exists h. split; [apply WrOther; [exact W | intros; discriminate]|]. exact M.
    + injection E as <- <-. split; [apply AnKeyPanics|]. congruence.
  - assert (NP : forall k, ~ pending (cs ++ [SValue arg]) k).
    { intros k. rewrite pending_snoc. intros [(a & E1 & _)|(_ & a & E1 & _)]; discriminate. }
    destruct (sm_key sm) as [k|] eqn:K.
    + pose proof (proj1 (P k) eq_refl) as Pk. destruct (set_calls_is_map h) as [m Em]. rewrite Em in M. rewrite M in E. destruct arg as [x|e|].
      * cbn [v_set] in E. injection E as <- <-. split; [now apply (AnValue _ k)|]. intros _. split.
        -- cbn. intros k'. split; [discriminate | intros H; destruct (NP _ H)].
        -- exists (h ++ [(k, x)]). split; [now constructor|]. rewrite set_calls_app, Em. reflexivity.
      * injection E as <- <-. split; [now apply (AnValueFails _ k)|]. intros _. split.
        -- cbn. intros k'. split; [discriminate | intros H; destruct (NP _ H)].
        -- exists h. split; [apply WrOther; [exact W | intros; discriminate]|]. now rewrite Em.
      * injection E as <- <-. split; [now apply (AnValuePanics _ k)|]. congruence.
    + injection E as <- <-. split; [|congruence]. apply AnNoKey. now apply (minv_none cs sm).
Qed.

Lemma minv_run cs rs sm : run_calls smap_step ser_map_new cs = (rs, sm) -> ~ In RPanic rs -> minv cs sm.
Proof.
  revert rs sm. induction cs as [|c cs IH] using rev_ind; intros rs sm E N.
  - injection E as <- <-. split; [|exists []; split; [constructor | reflexivity]].
    cbn. intros k; split; [discriminate | intros H; destruct (pending_nil _ H)].
  - destruct (run_calls smap_step ser_map_new cs) as [rs0 s0] eqn:E0.
    destruct (in_dec (fun a b : bool => bool_dec a b) true (map (fun r => match r with RPanic => true | _ => false end) rs0)) as [Hp|Hn].
    + exfalso. apply in_map_iff in Hp as ([| |] & Hr & Hin); try discriminate.
      rewrite run_panic, E0 in E by (now rewrite E0). injection E as <- <-. now apply N.
    + assert (N0 : ~ In RPanic rs0) by (intros H; apply Hn, in_map_iff; exists RPanic; now split).
      rewrite (run_app _ _ _ _ _ _ E0 N0) in E. cbn [run_calls] in E.
      specialize (IH rs0 s0 eq_refl N0). destruct (smap_step s0 c) as [r s1] eqn:Es.
      pose proof (smap_step_ok cs s0 c r s1 IH Es) as [_ H].
      destruct r; injection E as <- <-; try (apply H; discriminate). exfalso. apply N, in_or_app. right; now left.
Qed.

Lemma writes_fun cs h h' : writes cs h -> writes cs h' -> h = h'.
Proof.
  revert h h'. induction cs as [|c cs IH] using rev_ind; intros h h' A B.
  - inversion A as [ | ? ? ? ? _ _ E | ? ? ? _ _ E]; [ | destruct cs; discriminate | destruct cs; discriminate].
    inversion B as [ | ? ? ? ? _ _ E | ? ? ? _ _ E]; [ reflexivity | destruct cs; discriminate | destruct cs; discriminate].
  - assert (V : forall h, writes (cs ++ [c]) h ->
      (exists k x h0, c = SValue (Done x) /\ writes cs h0 /\ pending cs k /\ h = h0 ++ [(k, x)]) \/ (writes cs h /\ forall x, c <> SValue (Done x))).
    { clear. intros h W. inversion W as [E | cs' h0 k x W' P E | cs' h0 c' W' N E].
      - destruct cs; discriminate.
      - apply app_inj_tail in E as [-> <-]. left. exists k, x, h0. auto.
      - apply app_inj_tail in E as [-> <-]. right. auto. }
    destruct (V h A) as [(k & x & h0 & -> & W & P & ->)|[W N]], (V h' B) as [(k' & x' & h0' & E' & W' & P' & ->)|[W' N']].
    + injection E' as <-. rewrite (IH _ _ W W'). assert (k = k') as ->; [|reflexivity].
      clear -P P'. destruct cs as [|c cs _] using rev_ind; [destruct (pending_nil _ P)|].
      revert P P'. induction cs as [|d cs IHc] using rev_ind in c |- *.
      * rewrite !pending_snoc. intros [(a & -> & K)|(H & _)] [(a' & E & K')|(H' & _)]; try (destruct (pending_nil _ H)); try (destruct (pending_nil _ H')).
        injection E as <-. now apply (key_text_fun a).
      * rewrite !(pending_snoc (cs ++ [d])). intros [(a & -> & K)|(H & a & -> & NK)] [(a' & E & K')|(H' & a' & E & NK')]; injection E as <-.
        -- now apply (key_text_fun a).
        -- destruct (NK' _ K).
        -- destruct (NK _ K').
        -- now apply (IHc d).
    + destruct (N' x eq_refl).
    + destruct (N x' E').
    + now apply IH.
Qed.

Lemma answer_fun cs c r r' : answer cs c r -> answer cs c r' -> r = r'.
Proof.
  intros A B. destruct A as [a k (v & -> & K)|e|v e K| |k x P|k e P|k P|a P]; inversion B; subst; try reflexivity.
  - congruence.
  - destruct H0 as (v' & E & K'). discriminate.
  - destruct H0 as (v' & E & K'). injection E as <-. congruence.
  - congruence.
  - destruct H0 as (v' & E & K'). discriminate.
  - exfalso; eapply H0; eassumption.
  - exfalso; eapply H0; eassumption.
  - exfalso; eapply P; eassumption.
  - exfalso; eapply P; eassumption.
Qed.

(** ** Sequences and structs *)
Lemma seq_run l cs xs : successes cs xs -> run_calls seq_step (VArr l) cs = (map same_answer cs, VArr (l ++ xs)).
Proof.
  intros H; revert l; induction H as [|x cs xs _ IH|e cs xs _ IH]; intros l; cbn [run_calls seq_step v_push map same_answer].
  - now rewrite app_nil_r.
  - rewrite IH, <- app_assoc. reflexivity.
  - now rewrite IH.
Qed.
Lemma successes_exist cs : ~ In Panic cs -> exists xs, successes cs xs.
Proof.
  induction cs as [|[x|e|] cs IH]; intros N.
  - exists []; constructor.
  - destruct IH as [xs H]; [intros H; apply N; now right|]. exists (x :: xs). now constructor.
  - destruct IH as [xs H]; [intros H; apply N; now right|]. exists xs. now constructor.
  - exfalso; apply N; now left.
Qed.
Lemma seq_run_panic l before xs after : successes before xs ->
  run_calls seq_step (VArr l) (before ++ Panic :: after) = (map same_answer before ++ [RPanic], VArr (l ++ xs)).
Proof.
  intros H; revert l; induction H as [|x cs xs _ IH|e cs xs _ IH]; intros l; cbn [app run_calls seq_step v_push map same_answer].
  - now rewrite app_nil_r.
  - rewrite IH, <- app_assoc. reflexivity.
  - now rewrite IH.
Qed.
Lemma struct_run m cs h : field_writes cs h ->
  run_calls sfield_step (VMap m) cs = (map field_answer cs, fst (set_calls (VMap m) h)).
Proof.
  intros H; revert m; induction H as [|n x cs h _ IH|n e cs h _ IH|n cs h _ IH]; intros m; cbn [run_calls sfield_step v_set map field_answer same_answer].
  - reflexivity.
  - rewrite IH. cbn [set_calls v_set]. now destruct (set_calls (VMap (minsert n x m)) h).
  - now rewrite IH.
  - now rewrite IH.
Qed.
Lemma field_writes_exist cs : (forall n, ~ In (SField n Panic) cs) -> exists h, field_writes cs h.
Proof.
  induction cs as [|[n [x|e|]|n] cs IH]; intros N.
  - exists []; constructor.
  - destruct IH as [h H]; [intros k H; apply (N k); now right|]. exists ((n, x) :: h). now constructor.
  - destruct IH as [h H]; [intros k H; apply (N k); now right|]. exists h. now constructor.
  - exfalso; apply (N n); now left.
  - destruct IH as [h H]; [intros k H; apply (N k); now right|]. exists h. now constructor.
Qed.

(** ** Standard driving *)
Ltac noreply E := repeat match type of E with
  | context [match sm_key ?a with _ => _ end] => cbn [sm_key sm_map] in E
  | context [run_calls ?a ?b ?c] => destruct (run_calls a b c)
  end; discriminate E.
Lemma entries_go {A} (serk serv : A -> mres value) l : forall m v,
  (fix go (sm : ser_map) (l : list A) : mres value :=
     match l with
     | [] => Done (sm_map sm)
     | e :: t =>
       obind (sm_serialize_key sm (serk e)) (fun sm1 =>
       obind (sm_serialize_value sm1 (serv e)) (fun sm2 => go sm2 t))
     end) {| sm_map := VMap m; sm_key := None |} l = Done v <->
  exists sm, run_calls smap_step {| sm_map := VMap m; sm_key := None |} (flat_map (fun e => [SKey (serk e); SValue (serv e)]) l)
    = (repeat ROk (2 * List.length l), sm) /\ sm_map sm = v.
Proof.
  induction l as [|e l IH]; intros m v.
  - cbn. split.
    + intros E; injection E as <-. eexists; split; reflexivity.
    + intros (sm & E & <-). injection E as <-. reflexivity.
  - cbn [flat_map app run_calls smap_step]. unfold sm_serialize_key at 1.
    replace (2 * List.length (e :: l)) with (S (S (2 * List.length l))) by (cbn; lia). cbn [repeat].
    destruct (serk e) as [kv|er|]; cbn [obind].
    2: { split; [discriminate|]. intros (sm & E & _). noreply E. }
    2: { split; [discriminate|]. intros (sm & E & _). discriminate. }
    destruct (into_string kv) as [k|er]; cbn [of_result obind].
    2: { split; [discriminate|]. intros (sm & E & _). noreply E. }
    unfold sm_serialize_value at 1. cbn [sm_key sm_map]. destruct (serv e) as [x|er|]; cbn [obind].
    2: { split; [discriminate|]. intros (sm & E & _). noreply E. }
    2: { split; [discriminate|]. intros (sm & E & _). discriminate. }
    unfold map_set. cbn [v_set of_result obind]. rewrite IH. clear IH.
    destruct (run_calls smap_step {| sm_map := VMap (minsert k x m); sm_key := None |} _) as [rs sm0]. split.
    + intros (sm & E & Ev). injection E as -> ->. exists sm. now split.
    + intros (sm & E & Ev). injection E as -> ->. exists sm. now split.
Qed.
Lemma entries_standard {A} (serk serv : A -> mres value) l v :
  ser_map_entries serk serv l = Done v <->
  whole_map (flat_map (fun e => [SKey (serk e); SValue (serv e)]) l) = (repeat ROk (2 * List.length l), v).
Proof.
  unfold ser_map_entries. etransitivity; [apply (entries_go serk serv l [] v)|].
  unfold whole_map, ser_map_new, new_map. destruct (@run_calls _ _ _ _ _) as [rs sm0]. split.
  - intros (sm & E & <-). now injection E as -> ->.
  - intros E. injection E as -> <-. eauto.
Qed.
Lemma seq_standard {A} (ser1 : A -> mres value) l : forall a v, ser_seq ser1 (VArr a) l = Done v <->
  run_calls seq_step (VArr a) (map ser1 l) = (repeat ROk (List.length l), v).
Proof.
  unfold ser_seq. induction l as [|x l IH]; intros a v.
  - cbn. split; intros E; [injection E as <- | injection E as <-]; reflexivity.
  - cbn [map run_calls List.length repeat]. unfold seq_step at 1. destruct (ser1 x) as [y|e|]; cbn [obind].
    + unfold seq_push. cbn [v_push of_result obind]. rewrite IH. destruct (@run_calls _ _ _ _ _) as [rs s]. split; intros E; now injection E as -> ->.
    + split; [discriminate|]. intros E. noreply E.
    + split; [discriminate|]. intros E. discriminate.
Qed.
Lemma fields_standard {A} (ser1 : A -> mres value) l : forall m v, ser_fields ser1 (VMap m) l = Done v <->
  run_calls sfield_step (VMap m) (map (fun f => SField (fst f) (ser1 (snd f))) l) = (repeat ROk (List.length l), v).
Proof.
  unfold ser_fields. induction l as [|[k x] l IH]; intros m v.
  - cbn. split; intros E; [injection E as <- | injection E as <-]; reflexivity.
  - cbn [map run_calls List.length repeat fst snd]. unfold sfield_step at 1. destruct (ser1 x) as [y|e|]; cbn [obind].
    + unfold map_set. cbn [v_set of_result obind]. rewrite IH. destruct (@run_calls _ _ _ _ _) as [rs s]. split; intros E; now injection E as -> ->.
    + split; [discriminate|]. intros E. noreply E.
    + split; [discriminate|]. intros E. discriminate.
Qed.
