(** UTF-8 commutes with the path functions (C121). *)
From Coq Require Import ZArith Bool String Lia.
From Coq Require Import List.
Import ListNotations.
From Verif.Model Require Import Text Value Paths Finder World Layers Config BytePaths.
From Verif.Spec Require Import Spec EnvSpec PathSpec FinderSpec.
From Verif.Proofs Require Import Basics Utf8 PathLemmas.
Local Open Scope Z_scope.
Local Ltac Zify.zify_post_hook ::= Z.to_euclidean_division_equations.

(** A code like UTF-8: ASCII stays, everything else becomes bytes above it. *)
Definition ascii_code (g : Z -> list Z) : Prop :=
  (forall c, c < 128 -> g c = [c]) /\ (forall c, 128 <= c -> g c <> [] /\ forall b, In b (g c) -> 128 <= b).
Lemma encode_ascii_code : ascii_code utf8_encode_char.
Proof.
  split; intros c H; unfold utf8_encode_char.
  - replace (c <? 128) with true by lia. reflexivity.
  - replace (c <? 128) with false by lia. destruct (c <? 2048); [|destruct (c <? 65536)]; (split; [discriminate|]); cbn [In]; intros b Hb; lia.
Qed.
Lemma rev_ascii_code g : ascii_code g -> ascii_code (fun c => rev (g c)).
Proof.
  intros [A B]. split; intros c H; [now rewrite A|]. destruct (B c H) as [N L]. split.
  - intros E. apply N. apply rev_nil_iff. exact E.
  - intros b Hb. apply in_rev in Hb. auto.
Qed.
Lemma rev_flat_map (g : Z -> list Z) (s : list Z) : rev (flat_map g s) = flat_map (fun c => rev (g c)) (rev s).
Proof. induction s as [|c s IH]; cbn; auto. rewrite rev_app_distr, IH, flat_map_app. cbn. now rewrite app_nil_r. Qed.

Section Code.
Variable g : Z -> list Z.
Hypothesis G : ascii_code g.
Lemma code_low c : c < 128 -> g c = [c].
Proof. apply G. Qed.
Lemma code_high c : ~ c < 128 -> exists b bs, g c = b :: bs /\ 128 <= b /\ (forall x, In x bs -> 128 <= x).
Proof.
  intros H. destruct G as [_ B]. destruct (B c ltac:(lia)) as [N L]. destruct (g c) as [|b bs]; [contradiction|].
  exists b, bs. repeat split; auto with datatypes.
Qed.
Lemma span_not_high x bs r : x < 128 -> (forall b, In b bs -> 128 <= b) ->
  span_not x (bs ++ r) = (bs ++ fst (span_not x r), snd (span_not x r)).
Proof.
  intros X H. induction bs as [|b bs IH]; cbn; [now destruct (span_not x r)|].
  assert (128 <= b) by (apply H; left; auto). replace (b =? x) with false by lia. rewrite IH; auto with datatypes.
Qed.
Lemma span_not_code x s : x < 128 ->
  span_not x (flat_map g s) = (flat_map g (fst (span_not x s)), flat_map g (snd (span_not x s))).
Proof.
  intros X. induction s as [|c s IH]; [reflexivity|]. cbn [flat_map span_not].
  destruct (Z_lt_dec c 128) as [L|H].
  - rewrite (code_low c L). cbn [app span_not]. destruct (Z.eqb_spec c x) as [->|N].
    + cbn [fst snd flat_map]. now rewrite (code_low x X).
    + rewrite IH. destruct (span_not x s) as [a b]. cbn [fst snd flat_map]. now rewrite (code_low c L).
  - destruct (code_high c H) as (b & bs & E & Hb & Hbs). replace (c =? x) with false by lia.
    rewrite span_not_high, IH; auto.
    + destruct (span_not x s) as [a r]. reflexivity.
    + rewrite E. intros y [<-|Hy]; auto.
Qed.
Lemma strip_tail_code n : forall s, (List.length s <= n)%nat -> strip_tail (flat_map g s) = flat_map g (strip_tail s).
Proof.
  induction n as [|n IH]; intros s Ln; [destruct s; [reflexivity | cbn in Ln; lia]|].
  destruct s as [|c s]; [reflexivity|]. cbn [List.length] in Ln. cbn [flat_map].
  destruct (Z_lt_dec c 128) as [L|H].
  - rewrite (code_low c L). cbn [app strip_tail]. destruct (c =? SEP); [apply IH; lia|]. destruct (c =? DOT) eqn:Ed.
    + destruct s as [|c' s]; [reflexivity|]. cbn [flat_map List.length] in *. destruct (Z_lt_dec c' 128) as [L'|H'].
      * rewrite (code_low c' L'). cbn [app]. destruct (c' =? SEP) eqn:Es; [apply IH; lia|]. cbn [flat_map]. now rewrite (code_low c L), (code_low c' L').
      * destruct (code_high c' H') as (b & bs & E & Hb & _). rewrite E. cbn [app]. unfold SEP in *. replace (b =? 47) with false by lia. replace (c' =? 47) with false by lia.
        cbn [flat_map]. now rewrite (code_low c L), E.
    + cbn [flat_map]. now rewrite (code_low c L).
  - destruct (code_high c H) as (b & bs & E & Hb & _). rewrite E. cbn [app strip_tail]. unfold SEP, DOT in *.
    replace (b =? 47) with false by lia. replace (b =? 46) with false by lia. replace (c =? 47) with false by lia. replace (c =? 46) with false by lia.
    cbn [flat_map]. now rewrite E.
Qed.
Lemma nil_code s : flat_map g s = [] <-> s = [].
Proof.
  split; [|intros ->; reflexivity]. destruct s as [|c s]; auto. cbn. destruct (Z_lt_dec c 128) as [L|H].
  - now rewrite (code_low c L).
  - destruct (code_high c H) as (b & bs & E & _). now rewrite E.
Qed.
Lemma in_code x s : x < 128 -> (In x (flat_map g s) <-> In x s).
Proof.
  intros X. rewrite in_flat_map. split.
  - intros (c & Hc & Hx). destruct (Z_lt_dec c 128) as [L|H].
    + rewrite (code_low c L) in Hx. destruct Hx as [->|[]]; auto.
    + destruct (code_high c H) as (b & bs & E & Hb & Hbs). rewrite E in Hx. destruct Hx as [<-|Hx]; [lia|]. specialize (Hbs x Hx). lia.
  - intros H. exists x. rewrite (code_low x X). cbn; auto.
Qed.
(** An ASCII text is encoded only by itself. *)
Lemma ascii_code_eq a : (forall c, In c a -> c < 128) -> forall s, flat_map g s = a <-> s = a.
Proof.
  intros A s. split.
  - revert a A. induction s as [|c s IH]; intros a A E; cbn in E; [auto|]. destruct (Z_lt_dec c 128) as [L|H].
    + rewrite (code_low c L) in E. cbn in E. subst a. f_equal. apply IH; auto. intros d Hd. apply A. right; auto.
    + destruct (code_high c H) as (b & bs & E' & Hb & _). rewrite E' in E. subst a. specialize (A b (or_introl eq_refl)). lia.
  - intros ->. induction a as [|c a IH]; cbn; auto. rewrite (code_low c) by (apply A; left; auto). cbn. f_equal. apply IH. intros d Hd. apply A. right; auto.
Qed.
End Code.

Local Notation enc := utf8_encode.
Lemma enc_app a b : enc (a ++ b) = enc a ++ enc b.
Proof. apply flat_map_app. Qed.
Lemma enc_cons c b : c < 128 -> enc (c :: b) = c :: enc b.
Proof. intros H. unfold utf8_encode. cbn. now rewrite (code_low _ encode_ascii_code c H). Qed.
Lemma enc_nil_iff s : enc s = [] <-> s = [].
Proof. apply nil_code, encode_ascii_code. Qed.
Lemma in_enc x s : x < 128 -> (In x (enc s) <-> In x s).
Proof. apply in_code, encode_ascii_code. Qed.
Lemma enc_ascii a s : (forall c, In c a -> c < 128) -> (enc s = a <-> s = a).
Proof. intros H. apply ascii_code_eq; auto. apply encode_ascii_code. Qed.
Lemma str_eqb_enc a s : (forall c, In c a -> c < 128) -> str_eqb (enc s) a = str_eqb s a.
Proof.
  intros H. destruct (str_eqb s a) eqn:E.
  - apply str_eqb_eq in E. apply str_eqb_eq. now apply enc_ascii.
  - apply Bool.not_true_iff_false. intros X. apply str_eqb_eq in X. apply (proj1 (enc_ascii a s H)) in X. rewrite X, str_eqb_refl in E. discriminate.
Qed.

Lemma rev_enc s : rev (enc s) = flat_map (fun c => rev (utf8_encode_char c)) (rev s).
Proof. apply rev_flat_map. Qed.
Lemma rev_code s : rev (flat_map (fun c => rev (utf8_encode_char c)) s) = enc (rev s).
Proof.
  rewrite rev_flat_map. unfold utf8_encode.
  assert (A : forall r : list Z, flat_map (fun c => rev (rev (utf8_encode_char c))) r = flat_map utf8_encode_char r); [|apply A].
  intros r. induction r as [|c r IH]; [reflexivity|]. cbn [flat_map]. now rewrite rev_involutive, IH.
Qed.
Definition RC := rev_ascii_code _ encode_ascii_code.

Lemma split_last_enc p : split_last (enc p) = (enc (fst (split_last p)), enc (snd (split_last p))).
Proof.
  unfold split_last. rewrite rev_enc, (strip_tail_code _ RC _ _ (le_n _)), (span_not_code _ RC SEP) by reflexivity.
  destruct (span_not SEP (strip_tail (rev p))) as [a b]. cbn [fst snd]. now rewrite !rev_code.
Qed.
Lemma file_name_enc p : file_name (enc p) = option_map enc (file_name p).
Proof.
  unfold file_name. rewrite split_last_enc. cbn [snd]. set (n := snd (split_last p)). clearbody n.
  destruct n as [|c n0] eqn:En; [reflexivity|]. rewrite <- En.
  assert (N : enc n <> []) by (rewrite enc_nil_iff; subst; discriminate). destruct (enc n) as [|b e] eqn:Ee; [contradiction|]. rewrite <- Ee.
  rewrite str_eqb_enc by (cbn; intros x [<-|[<-|[]]]; lia). destruct (str_eqb n (lit "..")) eqn:E; auto.
Qed.
Lemma rsplit_dot_enc n : rsplit_dot (enc n) = option_map (fun x => (enc (fst x), enc (snd x))) (rsplit_dot n).
Proof.
  unfold rsplit_dot. rewrite rev_enc, (span_not_code _ RC DOT) by reflexivity.
  pose proof (span_not_spec DOT (rev n)) as S. destruct (span_not DOT (rev n)) as [a b]. cbn [fst snd]. destruct (S a b eq_refl) as (_ & _ & [->|(b' & ->)]); [reflexivity|].
  cbn [flat_map option_map]. rewrite (code_low _ RC DOT) by reflexivity. cbn [app fst snd]. now rewrite !rev_code.
Qed.
Lemma stem_ext_enc n : stem_ext (enc n) = (enc (fst (stem_ext n)), option_map enc (snd (stem_ext n))).
Proof.
  unfold stem_ext. rewrite rsplit_dot_enc. destruct (rsplit_dot n) as [[a b]|]; [|reflexivity]. cbn [option_map fst snd].
  destruct a as [|c a]; [reflexivity|]. destruct (enc (c :: a)) as [|x y] eqn:E; [apply (proj1 (enc_nil_iff _)) in E; discriminate|]. cbn [fst snd option_map]. now rewrite <- E.
Qed.
Lemma extension_enc p : extension (enc p) = option_map enc (extension p).
Proof. unfold extension. rewrite file_name_enc. destruct (file_name p) as [n|]; cbn; auto. now rewrite stem_ext_enc. Qed.
Lemma existsb_sep_enc e : existsb (fun c => c =? SEP) (enc e) = existsb (fun c => c =? SEP) e.
Proof.
  apply eq_true_iff_eq. rewrite !existsb_exists. pose proof (in_enc SEP e eq_refl) as I.
  split; intros (x & Hx & E); apply Z.eqb_eq in E; subst x; exists SEP; (split; [|apply Z.eqb_refl]); tauto.
Qed.
Lemma with_extension_enc p e : with_extension (enc p) (enc e) = option_map enc (with_extension p e).
Proof.
  unfold with_extension. rewrite existsb_sep_enc. destruct (existsb (fun c => c =? SEP) e); [reflexivity|]. rewrite file_name_enc. destruct (file_name p) as [n|]; [|reflexivity]. cbn [option_map]. rewrite stem_ext_enc, split_last_enc. cbn [fst].
  rewrite !enc_app. do 3 f_equal. destruct e as [|c e]; [reflexivity|]. destruct (enc (c :: e)) as [|x y] eqn:E; [apply (proj1 (enc_nil_iff _)) in E; discriminate|]. rewrite enc_cons by reflexivity. now rewrite E.
Qed.
Lemma is_absolute_enc p : is_absolute (enc p) = is_absolute p.
Proof.
  destruct p as [|c p]; [reflexivity|]. unfold utf8_encode. cbn [flat_map]. destruct (Z_lt_dec c 128) as [L|H].
  - now rewrite (code_low _ encode_ascii_code c L).
  - destruct (code_high _ encode_ascii_code c H) as (b & bs & E & Hb & _). rewrite E. cbn. unfold SEP. lia.
Qed.
Lemma ends_with_sep_enc p : ends_with_sep (enc p) = ends_with_sep p.
Proof.
  unfold ends_with_sep. rewrite rev_enc. destruct (rev p) as [|c r]; [reflexivity|]. cbn [flat_map].
  assert (Lo : c < 128 -> rev (utf8_encode_char c) = [c]) by apply (code_low _ RC c).
  assert (Hi : ~ c < 128 -> exists b bs, rev (utf8_encode_char c) = b :: bs /\ 128 <= b /\ (forall x, In x bs -> 128 <= x)) by apply (code_high _ RC c).
  destruct (Z_lt_dec c 128) as [L|H].
  - rewrite Lo by exact L. reflexivity.
  - destruct (Hi H) as (b & bs & E & Hb & _). rewrite E. cbn [app]. unfold SEP. lia.
Qed.
Lemma path_join_enc b p : path_join (enc b) (enc p) = enc (path_join b p).
Proof.
  unfold path_join. rewrite is_absolute_enc. destruct (is_absolute p); [reflexivity|]. destruct b as [|c b]; [reflexivity|].
  destruct (enc (c :: b)) as [|x y] eqn:E; [apply (proj1 (enc_nil_iff _)) in E; discriminate|]. rewrite <- E, ends_with_sep_enc. destruct (ends_with_sep (c :: b)); rewrite enc_app; reflexivity.
Qed.

(** ** The searches *)
From Verif.Spec Require Import BytePathsSpec.
Section Searches.
Variable ex : nat -> bpath -> bool.
Variable oc : bool.
Let ex' : fs_oracle := fun t p => ex t (enc p).
Let W := with_text_extension.
Let B := result_in_bytes.

Lemma fr_new_enc t p e : is_text e = true ->
  W (fst (fr_new ex t (enc p) (enc e))) = B (fst (fr_new ex' t p e)) /\ snd (fr_new ex t (enc p) (enc e)) = snd (fr_new ex' t p e).
Proof.
  intros T. split; [|reflexivity]. unfold fr_new, W, B, with_text_extension, result_in_bytes. cbn [fst fr_path fr_extension fr_index fr_exists]. unfold ext_from.
  rewrite str_eqb_enc by (cbn; intros x H; repeat (destruct H as [<-|H]; [lia|]); destruct H). destruct (str_eqb e (lit ".toml")); [reflexivity|].
  now rewrite (decode_encode e T).
Qed.
Definition same_flow (x : flow find_result (option find_result) * nat) (y : flow find_result (option find_result) * nat) : Prop :=
  snd x = snd y /\ match fst x, fst y with
  | Return a, Return b => W a = B b
  | Next a, Next b => option_map W a = option_map B b
  | _, _ => False
  end.
Lemma none_same (a b : option find_result) : option_map W a = option_map B b -> match a with None => true | Some _ => false end = match b with None => true | Some _ => false end.
Proof. destruct a, b; cbn; congruence. Qed.

Lemma first_exts_enc allow base exts : (forall e, In e exts -> is_text e = true) -> forall first' first t, option_map W first' = option_map B first ->
  same_outcome same_flow (find_first_exts ex allow (enc base) (map enc exts) first' t) (find_first_exts ex' allow base exts first t).
Proof.
  induction exts as [|e exts IH]; intros T first' first t S; cbn [map find_first_exts]; [constructor; split; auto|].
  rewrite with_extension_enc. destruct (with_extension base e) as [file|]; cbn [option_map]; [|constructor].
  change (ex' t file) with (ex t (enc file)). destruct (fr_new_enc (Datatypes.S t) file e (T e (or_introl eq_refl))) as [F N].
  destruct (fr_new ex (Datatypes.S t) (enc file) (enc e)) as [r' t'], (fr_new ex' (Datatypes.S t) file e) as [r t2]. cbn [fst snd] in F, N. subst t2.
  destruct (ex t (enc file)); [constructor; split; auto|]. rewrite (none_same _ _ S). destruct (allow && _).
  - apply IH; auto with datatypes. cbn. now rewrite F.
  - apply IH; auto with datatypes.
Qed.
Lemma first_folders_enc allow name exts folders : (forall e, In e exts -> is_text e = true) -> forall first' first t, option_map W first' = option_map B first ->
  same_outcome same_flow (find_first_folders ex allow (enc name) (map enc exts) (map enc folders) first' t) (find_first_folders ex' allow name exts folders first t).
Proof.
  intros T. induction folders as [|d folders IH]; intros first' first t S; cbn [map find_first_folders]; [constructor; split; auto|].
  rewrite path_join_enc. destruct (first_exts_enc allow (path_join d name) exts T first' first t S) as [a b [E F]|e|]; cbn [obind]; try constructor.
  destruct a as [[a|a] t1], b as [[b|b] t2]; cbn [fst snd] in E, F; subst t2; try contradiction; [constructor; split; auto | apply IH; auto].
Qed.
Definition same_result (x y : find_result) : Prop := W x = B y.
Lemma validate_enc f : finder_validate (as_bytes (finder_in_bytes f)) = finder_validate f.
Proof. unfold finder_validate, as_bytes, finder_in_bytes. cbn. destruct (ff_folders f); [reflexivity|]. now destruct (ff_exts f). Qed.
Lemma find_first_enc f allow : (forall e, In e (ff_exts f) -> is_text e = true) ->
  same_outcome same_result (find_first ex (as_bytes (finder_in_bytes f)) allow) (find_first ex' f allow).
Proof.
  intros T. unfold find_first. rewrite validate_enc. destruct (finder_validate f) as [[]|]; cbn [of_result obind as_bytes finder_in_bytes ff_name ff_exts ff_folders bf_name bf_exts bf_folders]; [|constructor].
  destruct (first_folders_enc allow (ff_name f) (ff_exts f) (ff_folders f) T None None 0 eq_refl) as [x y [E F]|e|]; cbn [obind] in *; try constructor.
  destruct (fst x) as [p|p], (fst y) as [q|q]; try contradiction; [constructor; exact F|]. destruct allow; [|constructor]. destruct p, q; try discriminate F; constructor. cbn in F. unfold same_result. congruence.
Qed.

Definition same_last (x y : (option find_result * option find_result) * nat) : Prop :=
  snd x = snd y /\ option_map W (fst (fst x)) = option_map B (fst (fst y)) /\ option_map W (snd (fst x)) = option_map B (snd (fst y)).
Lemma last_exts_enc allow base exts : (forall e, In e exts -> is_text e = true) -> forall st' st t,
  option_map W (fst st') = option_map B (fst st) -> option_map W (snd st') = option_map B (snd st) ->
  same_outcome same_last (find_last_exts ex allow (enc base) (map enc exts) st' t) (find_last_exts ex' allow base exts st t).
Proof.
  induction exts as [|e exts IH]; intros T st' st t S1 S2; cbn [map find_last_exts]; [constructor; split; auto|].
  rewrite with_extension_enc. destruct (with_extension base e) as [file|]; cbn [option_map]; [|constructor].
  change (ex' t file) with (ex t (enc file)). destruct (fr_new_enc (Datatypes.S t) file e (T e (or_introl eq_refl))) as [F N].
  destruct (fr_new ex (Datatypes.S t) (enc file) (enc e)) as [r' t'], (fr_new ex' (Datatypes.S t) file e) as [r t2]. cbn [fst snd] in F, N. subst t2.
  destruct (ex t (enc file)); [apply IH; cbn [fst snd]; auto with datatypes; cbn; now rewrite F|]. rewrite (none_same _ _ S1). destruct (allow && _).
  - apply IH; cbn [fst snd]; auto with datatypes. cbn. now rewrite F.
  - apply IH; auto with datatypes.
Qed.
Lemma last_folders_enc allow name exts folders : (forall e, In e exts -> is_text e = true) -> forall st' st t,
  option_map W (fst st') = option_map B (fst st) -> option_map W (snd st') = option_map B (snd st) ->
  same_outcome same_last (find_last_folders ex allow (enc name) (map enc exts) (map enc folders) st' t) (find_last_folders ex' allow name exts folders st t).
Proof.
  intros T. induction folders as [|d folders IH]; intros st' st t S1 S2; cbn [map find_last_folders]; [constructor; split; auto|].
  rewrite path_join_enc. destruct (last_exts_enc allow (path_join d name) exts T st' st t S1 S2) as [a b (E & F & G)|e|]; cbn [obind]; try constructor.
  rewrite E. apply IH; auto.
Qed.
Lemma find_last_enc f allow : (forall e, In e (ff_exts f) -> is_text e = true) ->
  same_outcome same_result (find_last ex (as_bytes (finder_in_bytes f)) allow) (find_last ex' f allow).
Proof.
  intros T. unfold find_last. rewrite validate_enc. destruct (finder_validate f) as [[]|]; cbn [of_result obind as_bytes finder_in_bytes ff_name ff_exts ff_folders bf_name bf_exts bf_folders]; [|constructor].
  destruct (last_folders_enc allow (ff_name f) (ff_exts f) (ff_folders f) T (None, None) (None, None) 0 eq_refl eq_refl) as [x y (E & F & G)|e|]; cbn [obind] in *; try constructor.
  destruct x as [[a b] t], y as [[c d] u]; cbn [fst snd] in *. destruct a, c; try discriminate F; [constructor; unfold same_result; cbn in F; congruence|].
  destruct allow; [|constructor]. destruct b, d; try discriminate G; constructor. unfold same_result; cbn in G; congruence.
Qed.

Definition same_all (x y : (list find_result * Z) * nat) : Prop :=
  snd x = snd y /\ snd (fst x) = snd (fst y) /\ map W (fst (fst x)) = map B (fst (fst y)).
Lemma with_index_enc r' r i : W r' = B r -> W (fr_with_index r' i) = B (fr_with_index r i).
Proof. unfold W, B, with_text_extension, result_in_bytes, fr_with_index. cbn. intros [= -> -> _ ->]. reflexivity. Qed.
Lemma all_exts_enc allow base exts : (forall e, In e exts -> is_text e = true) -> forall st' st t,
  snd st' = snd st -> map W (fst st') = map B (fst st) ->
  same_outcome same_all (find_all_exts ex oc allow (enc base) (map enc exts) st' t) (find_all_exts ex' oc allow base exts st t).
Proof.
  induction exts as [|e exts IH]; intros T st' st t S1 S2; cbn [map find_all_exts]; [constructor; repeat split; auto|].
  rewrite with_extension_enc. destruct (with_extension base e) as [file|]; cbn [option_map]; [|constructor].
  change (ex' t file) with (ex t (enc file)). cbv zeta. set (t1 := if allow then t else Datatypes.S t). destruct (fr_new_enc t1 file e (T e (or_introl eq_refl))) as [F N].
  destruct (fr_new ex t1 (enc file) (enc e)) as [r' t'], (fr_new ex' t1 file e) as [r t2]. cbn [fst snd] in F, N. subst t2.
  destruct (allow || ex t (enc file)); [|apply IH; auto with datatypes]. rewrite S1. destruct (u16_incr oc (snd st)); [|constructor]. apply IH; cbn [fst snd]; auto with datatypes.
  rewrite !map_app, S2. cbn [map]. now rewrite (with_index_enc r' r _ F).
Qed.
Lemma all_folders_enc allow name exts folders : (forall e, In e exts -> is_text e = true) -> forall st' st t,
  snd st' = snd st -> map W (fst st') = map B (fst st) ->
  same_outcome same_all (find_all_folders ex oc allow (enc name) (map enc exts) (map enc folders) st' t) (find_all_folders ex' oc allow name exts folders st t).
Proof.
  intros T. induction folders as [|d folders IH]; intros st' st t S1 S2; cbn [map find_all_folders]; [constructor; repeat split; auto|].
  rewrite path_join_enc. destruct (all_exts_enc allow (path_join d name) exts T st' st t S1 S2) as [a b (E & F & G)|e|]; cbn [obind]; try constructor.
  rewrite E. apply IH; auto.
Qed.
Definition same_results (x y : list find_result) : Prop := map W x = map B y.
Lemma find_all_enc f allow : (forall e, In e (ff_exts f) -> is_text e = true) ->
  same_outcome same_results (find_all ex oc (as_bytes (finder_in_bytes f)) allow) (find_all ex' oc f allow).
Proof.
  intros T. unfold find_all. rewrite validate_enc. destruct (finder_validate f) as [[]|]; cbn [of_result obind as_bytes finder_in_bytes ff_name ff_exts ff_folders bf_name bf_exts bf_folders]; [|constructor].
  destruct (all_folders_enc allow (ff_name f) (ff_exts f) (ff_folders f) T ([], 0) ([], 0) 0 eq_refl eq_refl) as [x y (E & F & G)|e|]; cbn [obind] in *; try constructor.
  destruct (fst (fst x)) as [|p ps], (fst (fst y)) as [|q qs]; try discriminate G; constructor. exact G.
Qed.

Definition same_aof (x y : list find_result * option find_result * Z * nat) : Prop :=
  match x, y with (l, o, i, t), (l', o', i', t') => map W l = map B l' /\ option_map W o = option_map B o' /\ i = i' /\ t = t' end.
Lemma aof_exts_enc base exts : (forall e, In e exts -> is_text e = true) -> forall l' l o' o i t,
  map W l' = map B l -> option_map W o' = option_map B o ->
  same_outcome same_aof (find_aof_exts ex oc (enc base) (map enc exts) l' o' i t) (find_aof_exts ex' oc base exts l o i t).
Proof.
  induction exts as [|e exts IH]; intros T l' l o' o i t S1 S2; cbn [map find_aof_exts]; [constructor; repeat split; auto|].
  rewrite with_extension_enc. destruct (with_extension base e) as [file|]; cbn [option_map]; [|constructor].
  change (ex' t file) with (ex t (enc file)). destruct (fr_new_enc (Datatypes.S t) file e (T e (or_introl eq_refl))) as [F N].
  destruct (fr_new ex (Datatypes.S t) (enc file) (enc e)) as [r' t'], (fr_new ex' (Datatypes.S t) file e) as [r t2]. cbn [fst snd] in F, N. subst t2.
  destruct (ex t (enc file)).
  - destruct (u16_incr oc i); [|constructor]. apply IH; auto with datatypes. rewrite !map_app, S1. cbn [map]. now rewrite (with_index_enc r' r _ F).
  - destruct o', o; try discriminate S2; apply IH; auto with datatypes. cbn. now rewrite F.
Qed.
Lemma aof_folders_enc name exts folders : (forall e, In e exts -> is_text e = true) -> forall l' l o' o i t,
  map W l' = map B l -> option_map W o' = option_map B o ->
  same_outcome same_aof (find_aof_folders ex oc (enc name) (map enc exts) (map enc folders) l' o' i t) (find_aof_folders ex' oc name exts folders l o i t).
Proof.
  intros T. induction folders as [|d folders IH]; intros l' l o' o i t S1 S2; cbn [map find_aof_folders]; [constructor; repeat split; auto|].
  rewrite path_join_enc. destruct (aof_exts_enc (path_join d name) exts T l' l o' o i t S1 S2) as [a b E|e|]; cbn [obind]; try constructor.
  destruct a as [[[l1 o1] i1] t1], b as [[[l2 o2] i2] t2]. destruct E as (A1 & A2 & -> & ->). apply IH; auto.
Qed.
Lemma find_aof_enc f : (forall e, In e (ff_exts f) -> is_text e = true) ->
  same_outcome same_results (find_all_or_first ex oc (as_bytes (finder_in_bytes f))) (find_all_or_first ex' oc f).
Proof.
  intros T. unfold find_all_or_first. rewrite validate_enc. destruct (finder_validate f) as [[]|]; cbn [of_result obind as_bytes finder_in_bytes ff_name ff_exts ff_folders bf_name bf_exts bf_folders]; [|constructor].
  destruct (aof_folders_enc (ff_name f) (ff_exts f) (ff_folders f) T [] [] None None 0 0 eq_refl eq_refl) as [a b E|e|]; cbn [obind] in *; try constructor.
  destruct a as [[[l1 o1] i1] t1], b as [[[l2 o2] i2] t2]. destruct E as (A1 & A2 & -> & ->).
  destruct l1, l2; try discriminate A1; [|constructor; exact A1]. destruct o1, o2; try discriminate A2; constructor. unfold same_results. cbn [map]. rewrite (with_index_enc f0 f1); auto. cbn in A2. congruence.
Qed.
End Searches.

Lemma same_outcome_map {A E} (f g : A -> A) (x y : outcome A E) : same_outcome (fun a b => f a = g b) x y -> map_done f x = map_done g y.
Proof. intros []; cbn; congruence. Qed.
