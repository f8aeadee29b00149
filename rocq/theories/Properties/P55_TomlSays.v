(** C139: what a TOML file says is what is loaded. *)
From Coq Require Import ZArith Bool String Lia.
From Coq Require Import List.
Import ListNotations.
From Verif.Model Require Import Text Num Value Paths Finder World Merge Layers Config Toml TomlText.
From Verif.Spec Require Import Numerals Spec EnvSpec MergeSpec ConfigSpec PathSpec ReadsSpec TomlSpec TomlTextSpec TomlDates TomlGrammar TomlForm TomlSays.
From Verif.Proofs Require Import Basics Utf8 Files ConfigBuild Reads TomlProofs TomlHand TomlMeaning TomlSays.
Local Open Scope Z_scope.

(** The lines of the text say v: with [ [[path]] ] headers v holds the settings
    before the first header (for the rest see C134); without, v holds exactly
    what the lines say, and nothing is said twice. *)
Definition text_means (lim : nat) (s : str) (v : value) : Prop := exists m u l, (m = [] \/ m = [65279]) /\ s = m ++ u /\ file_says lim u l /\
  ((exists p, In (Element p) l) /\ starts_with l v \/ exists a ts, l = lines_of a ts /\ no_clash (paths_of a) (shape ts) /\ holds_exactly (all_settings a ts) (map fst ts) v).

Theorem C139_what_is_said_is_loaded : forall lim r s v, toml_from_str (toml_codec r (toml_text lim)) s = Ok v -> text_means lim s v.
Proof. exact (fun lim r s v => loads_says r lim s v). Qed.
Print Assumptions C139_what_is_said_is_loaded.

Lemma said_brackets lim s l : file_says lim s l -> ~ In 91 s -> (forall d, In d l -> exists p v, d = Setting p v).
Proof.
  assert (L : forall x d, line_says lim x d -> ~ In 91 x -> exists p v, d = Setting p v).
  { intros x d [p t w v0 v n P Lp B V Ln|p t P Lp|p t P Lp] N; [eauto | destruct N; now left | destruct N; now left]. }
  induction 1 as [e T|e nl s l T N F IH|w x d0 e nl s l B X T N F IH|w x d0 e B X T]; intros Nb d J.
  - destruct J.
  - apply IH; auto. intros K. apply Nb. rewrite !in_app_iff. auto.
  - destruct J as [<-|J]; [apply (L x); auto; intros K; apply Nb; rewrite !in_app_iff; auto|]. apply IH; auto. intros K. apply Nb. rewrite !in_app_iff. auto.
  - destruct J as [<-|[]]. apply (L x); auto. intros K. apply Nb. rewrite !in_app_iff. auto.
Qed.
(** Without brackets, a file is settings one after the other, and they are what is loaded. *)
Theorem C139_files_of_settings : forall lim r s v, ~ In 91 s -> toml_from_str (toml_codec r (toml_text lim)) s = Ok v ->
  exists m u a, (m = [] \/ m = [65279]) /\ s = m ++ u /\ file_says lim u (map (fun e => Setting (fst e) (snd e)) a) /\ ForallOrdPairs apart (map fst a) /\ holds_exactly a [] v.
Proof.
  intros lim r s v N E. destruct (loads_says r lim s v E) as (m & u & l & M & -> & F & D).
  assert (Nu : ~ In 91 u) by (intros K; apply N; rewrite in_app_iff; auto). pose proof (said_brackets _ _ _ F Nu) as Only.
  destruct D as [((p & J) & _)|(a & ts & -> & C & H)]; [destruct (Only _ J) as (? & ? & X); discriminate X|].
  destruct ts as [|[h es] ts]; [|destruct (Only (Table h)) as (? & ? & X); [unfold lines_of; apply in_or_app; right; now left | discriminate X]].
  exists m, u, a. unfold lines_of, all_settings, no_clash, all_paths, shape, paths_of in *. cbn [map flat_map] in *. rewrite app_nil_r in *. destruct C as (C & _). auto.
Qed.
Print Assumptions C139_files_of_settings.

(** A file layer that answers: there is no file and it is empty, or the file says it. *)
Theorem C139_what_a_layer_answers : forall lim r w p v, layer_read w (LFile (toml_handler (toml_codec r (toml_text lim))) p) = Ok v ->
  (w_fs w p = None /\ v = VMap []) \/ (exists bs s, w_fs w p = Some (NFile bs) /\ utf8 bs s /\ text_means lim s v).
Proof.
  intros lim r w p v H. apply file_answer_iff in H. inversion H as [N|N|bs N R|bs N R U|bs s msg N R U E|bs s v' N R U E]; subst; auto.
  right. exists bs, s. split; auto. split; auto. exact (loads_says _ _ _ _ E).
Qed.
Print Assumptions C139_what_a_layer_answers.

(** What says something has the form of C138. *)
Scheme sy_ind := Minimality for value_says Sort Prop
  with is_ind := Minimality for items_say Sort Prop
  with ps_ind := Minimality for pairs_say Sort Prop.
Combined Scheme say_ind from sy_ind, is_ind, ps_ind.
Lemma says_form lim : (forall n s v, value_says lim n s v -> value_form lim n s) /\ (forall n s l, items_say lim n s l -> items_form lim n s) /\ (forall n s l, pairs_say lim n s l -> pairs_form lim n s).
Proof.
  apply say_ind; intros; eauto using IfEnd, IfLast, IfMore, PfLast, PfMore, VfArray, VfEmpty, VfTable.
  - apply VfWord. match goal with H : word_says _ _ |- _ => destruct H end; unfold literal_word; eauto 8.
  - match goal with H : text_says _ _ |- _ => destruct H end; [eapply VfDouble | apply VfSingle | eapply VfLong | eapply VfLongPlain]; eauto.
Qed.
Theorem C139_what_says_something_has_the_form : forall lim s l, file_says lim s l -> file_form lim s.
Proof.
  assert (L : forall lim x d, line_says lim x d -> line_form lim x).
  { intros lim x d [p t w s v n P Lp B V Ln|p t P Lp|p t P Lp]; [eapply LfSetting | eapply LfTable | eapply LfElement]; eauto. exact (proj1 (says_form lim) _ _ _ V). }
  intros lim s l F. induction F as [e T|e nl s l T N F IH|w x d e nl s l B X T N F IH|w x d e B X T]; [now apply FfEnd | now apply FfQuiet | apply FfLine; eauto | apply FfLast; eauto].
Qed.
Print Assumptions C139_what_says_something_has_the_form.

(** Nothing is made up: whatever stands in v and is not a map, a setting put it
    there, itself or as the Value it sets further up. *)
Theorem C139_nothing_is_made_up : forall lim r s v, toml_from_str (toml_codec r (toml_text lim)) s = Ok v -> exists m u l, (m = [] \/ m = [65279]) /\ s = m ++ u /\ file_says lim u l /\
  ((exists p, In (Element p) l) \/ exists a ts, l = lines_of a ts /\ forall q y, at_path v q y -> ~ mapv y ->
    exists p x t, In (p, x) (all_settings a ts) /\ q = p ++ t /\ exists z, at_path x t z /\ vequiv z y).
Proof.
  intros lim r s v E. destruct (load_iff r lim s v E) as (m0 & _ & _ & V & Wf). apply wf_uniq in Wf.
  destruct (loads_says r lim s v E) as (m & u & l & M & -> & F & D). exists m, u, l. split; [exact M|]. split; [reflexivity|]. split; [exact F|].
  destruct D as [(J & _)|(a & ts & -> & _ & (H1 & H2 & H3))]; [now left|]. right. exists a, ts. split; [reflexivity|]. intros q y A N.
  destruct (H3 q y A) as [->|[(p & x & J & [(t & ->)|(t & ->)])|(h & J & (t & ->))]].
  - apply at_path_nil in A. subst y. destruct N. cbn [doc_value] in V. inversion V as [? Sc|?|]; subst; [destruct Sc | eexists; reflexivity].
  - destruct (H1 _ _ J) as (z & Az & Vz). apply at_path_app in Az as (y' & A1 & A2). rewrite (at_path_fun _ _ _ _ Wf A1 A) in A2. destruct t as [|k t].
    + exists q, x, []. rewrite app_nil_r in *. split; [exact J|]. split; [reflexivity|]. exists x. split; [constructor|]. apply at_path_nil in A2. now subst z.
    + inversion A2 as [|? ? ? ? ? Hk]; subst. destruct Hk as (n & -> & _). destruct N. eexists; reflexivity.
  - destruct (H1 _ _ J) as (z & Az & Vz). apply at_path_app in A as (y' & A1 & A2). rewrite (at_path_fun _ _ _ _ Wf A1 Az) in A2. exists p, x, t. split; [exact J|]. split; [reflexivity|].
    destruct (at_equiv _ _ _ _ (vequiv_sym _ _ Vz) A2) as (y2 & A3 & V3). exists y2. split; [exact A3 | now apply vequiv_sym].
  - destruct (H2 _ J) as (n & An). apply at_path_app in An as (y' & A1 & A2). rewrite (at_path_fun _ _ _ _ Wf A1 A) in A2. destruct N. destruct t as [|k t].
    + apply at_path_nil in A2. rewrite <- A2. eexists; reflexivity.
    + inversion A2 as [|? ? ? ? ? Hk]; subst. destruct Hk as (n' & -> & _). eexists; reflexivity.
Qed.
Print Assumptions C139_nothing_is_made_up.

(** Nor does a configuration built from TOML files: every Value in it that is
    not a map stands in one of the files. *)
Lemma defs_in k ms cs x : defs k ms cs -> In x cs -> exists m, In m ms /\ holds m k x.
Proof. induction 1 as [|m y ms cs H D IH|m ms cs H D IH]; intros J; [destruct J| |destruct (IH J) as (m' & ? & ?); exists m'; split; [now right | auto]]. destruct J as [<-|J]; [exists m; split; [now left | auto]|]. destruct (IH J) as (m' & ? & ?). exists m'. split; [now right | auto]. Qed.
Lemma resolves_in ms q f : resolves ms q f -> forall y, f = Leaf y -> exists m, In m ms /\ at_path m q y.
Proof.
  induction 1 as [ms|ms k p D|ms k cs x D N|ms k k' p cs x D N|ms k p cs x tm r D M T R IH]; intros y E; try discriminate E.
  - injection E as <-. destruct (defs_in _ _ _ x D) as (m & J & H); [apply in_or_app; right; now left|]. exists m. split; [exact J|]. apply (AtKey _ k x); [exact H | constructor].
  - destruct (IH y E) as (m & J & A). assert (J' : In m (cs ++ [x])) by (clear - T J; destruct T as [ms H|b v ms N H]; [exact J | apply in_or_app; right; now right]).
    destruct (defs_in _ _ _ m D J') as (m' & Jm & H). exists m'. split; [exact Jm|]. now apply (AtKey _ k m).
Qed.
Theorem C139_a_built_value_is_written : forall lim r w c l v q y, registered c l ->
  (forall n x, In (n, x) l -> exists p, x = LFile (toml_handler (toml_codec r (toml_text lim))) p) -> build_value w c false = Ok v -> at_path v q y -> ~ mapv y ->
  exists n p bs s m u d, In (n, LFile (toml_handler (toml_codec r (toml_text lim))) p) l /\ w_fs w p = Some (NFile bs) /\ utf8 bs s /\
    (m = [] \/ m = [65279]) /\ s = m ++ u /\ file_says lim u d /\
    ((exists p, In (Element p) d) \/ exists a ts, d = lines_of a ts /\ exists p x t z, In (p, x) (all_settings a ts) /\ q = p ++ t /\ at_path x t z /\ vequiv z y).
Proof.
  intros lim r w c l v q y R All B A N.
  destruct (split_first_error w (map snd l)) as [(vs & F)|(l1 & x & e & l2 & vs & E & F & X)].
  2: { rewrite (build_value_list w c l false R), E, (build_list_first_error w l1 vs x e l2 F X) in B. discriminate B. }
  assert (W : forall v0, In v0 vs -> exists n p, In (n, LFile (toml_handler (toml_codec r (toml_text lim))) p) l /\ layer_read w (LFile (toml_handler (toml_codec r (toml_text lim))) p) = Ok v0).
  { intros v0 J. clear - F J All. remember (map snd l) as ls eqn:El. assert (Sub : forall x, In x ls -> In x (map snd l)) by (subst; auto). clear El.
    induction F as [|x v1 ls vs H F IH]; [destruct J|]. destruct J as [->|J]; [|apply IH; auto; intros; apply Sub; now right].
    specialize (Sub x (or_introl eq_refl)). apply in_map_iff in Sub as ([n x'] & <- & Jx). cbn [snd] in *. destruct (All n x' Jx) as (p & ->). eauto. }
  destruct (only_maps_total vs) as (ms & O).
  destruct (build_resolution w c l vs ms false R) as (v' & B' & _ & _ & S); [apply reads_split; exact F| |exact O|].
  - intros v0 J. destruct (W v0 J) as (n & p & _ & L). apply C139_what_a_layer_answers in L as Y. apply file_answer_iff in L. inversion L as [Nf|Nf|bs Nf Rd|bs Nf Rd U|bs s msg Nf Rd U E|bs s v2 Nf Rd U E]; subst; [exact (conj (NoDup_nil _) I) || (cbn; repeat constructor)|].
    destruct (load_iff _ _ _ _ E) as (_ & _ & _ & _ & Wf). exact Wf.
  - rewrite B in B'. injection B' as <-. assert (Sl : sees v q (Leaf y)) by now apply SeesLeaf. apply S in Sl. destruct (resolves_in _ _ _ Sl y eq_refl) as (v0 & J & A0).
    destruct (W v0 (proj1 (only_maps_In _ _ _ O J))) as (n & p & Jl & L). apply file_answer_iff in L. inversion L as [Nf|Nf|bs Nf Rd|bs Nf Rd U|bs s msg Nf Rd U E|bs s v2 Nf Rd U E]; subst.
    + exfalso. apply N. inversion A0 as [|? ? ? ? ? Hk]; subst; [eexists; reflexivity|]. destruct Hk as (n' & [= <-] & []).
    + destruct (C139_nothing_is_made_up _ _ _ _ E) as (m & u & d & M & Es & Fs & D). exists n, p, bs, s, m, u, d. repeat (split; [assumption|]).
      destruct D as [D|(a & ts & Ed & D)]; [now left|]. right. exists a, ts. split; [exact Ed|]. destruct (D q y A0 N) as (p' & x' & t & J1 & J2 & z & J3 & J4). exists p', x', t, z. auto.
Qed.
Print Assumptions C139_a_built_value_is_written.

(** A text that loads: an integer, an inline table, a table, a date. *)
Definition c139_text : str := lit "size = 1_0 # ten" ++ [13; 10] ++ lit "p = {x.y = true, x.z = 'q'}" ++ [10] ++ lit "[t . u]" ++ [10] ++ lit "d = 2020-01-01".
Example C139_example :
  (exists v, toml_from_str (toml_codec false (toml_text 80)) c139_text = Ok v
    /\ at_path v [lit "p"; lit "x"; lit "z"] (VStr (lit "q")) /\ at_path v [lit "size"] (VInt 10) /\ at_path v [lit "t"; lit "u"; lit "d"] (moment (lit "2020-01-01")))
  /\ (exists v, ~ In 91 (lit "a.b = 0x1F" ++ [10]) /\ toml_from_str (toml_codec false (toml_text 80)) (lit "a.b = 0x1F" ++ [10]) = Ok v)
  /\ (exists v a u, ~ In 91 u /\ text_means 80 u v /\ a = VInt 31 /\ at_path v [lit "a"; lit "b"] a).
Proof.
  assert (P : forall v k m x p y, v = VMap m -> In (k, x) m -> at_path x p y -> at_path v (k :: p) y) by (intros v k m x p y -> J A; apply (AtKey _ k x); auto; exists m; auto).
  split; [|split].
  - eexists. split; [vm_compute; reflexivity|]. repeat split; repeat (eapply P; [reflexivity | cbn [In]; auto 6 |]); constructor.
  - eexists. split; [vm_compute; intuition discriminate | vm_compute; reflexivity].
  - eexists. eexists. exists (lit "a.b = 0x1F" ++ [10]). split; [vm_compute; intuition discriminate|]. split; [eapply (C139_what_is_said_is_loaded 80 false); vm_compute; reflexivity|].
    split; [reflexivity|]. repeat (eapply P; [reflexivity | cbn [In]; auto 6 |]). constructor.
Qed.
