(** C94: settings handed over as their text (what [TryInto<String>] and Display
    give, what an environment variable or a quoted value in a file holds). *)
From Coq Require Import ZArith Reals Bool String Lia Lra.
From Coq Require Import Floats.SpecFloat.
From Coq Require Import List.
Import ListNotations.
From Verif.Model Require Import Text Num Flt Value World Layers Convert Serde.
From Verif.Spec Require Import Spec Numerals FloatSpec EnvSpec TextSpec.
From Verif.Proofs Require Import Basics Merge Conversions FloatBase FloatConv FloatText Shortest Env AsText.
Local Open Scope Z_scope.

(** An integer's text is read as the same number, by every number type. *)
Theorem C94_integer_as_text : forall v z src s, wf v -> int_value v z src -> into_string v = Ok s ->
  (forall t n, into_int t (VStr s) = Ok n <-> into_int t v = Ok n)
  /\ into_f64 (VStr s) = into_f64 v /\ into_string (VStr s) = into_string v.
Proof.
  intros v z src s W I S. assert (C : canonical s z) by (destruct I; injection S as <-; apply print_int_canonical).
  split; [|split].
  - intros t n. rewrite (canonical_int s z t n C). destruct (into_int_int v z src t W I) as [H1 H2]. split.
    + intros [-> F]. auto.
    + intros H. exact (into_int_no_wrap v z src t n W I H).
  - rewrite (canonical_f64 s z C). destruct I; reflexivity.
  - now rewrite S.
Qed.
Print Assumptions C94_integer_as_text.

(** A float's text is read as the same float, whatever it is. *)
Theorem C94_float_as_text : forall f s, wf (VFloat f) -> into_string (VFloat f) = Ok s -> into_f64 (VStr s) = Ok f.
Proof. intros f s W S. injection S as <-. cbn. now rewrite (print_parse f W). Qed.
Print Assumptions C94_float_as_text.

(** A whole float's text is an integer numeral: of the number it is up to
    2^53, of a number that rounds to it beyond. *)
Theorem C94_whole_float_as_text : forall f z, finite64 f -> real f = IZR z -> z <> 0 \/ negative f = false ->
  exists s z', into_string (VFloat f) = Ok s /\ canonical s z'
    /\ nearest64 (IZR z') f /\ (Z.abs z <= 2 ^ 53 -> z' = z)
    /\ forall t n, into_int t (VStr s) = Ok n <-> n = z' /\ fits t z'.
Proof.
  intros f z F E N. destruct (whole_text f z F E N) as (s & z' & S & C & R & Ex). exists s, z'.
  split; auto. split; auto. split; [|split; [auto | intros t n; now apply canonical_int]].
  destruct (of_Z_rounds z') as [H1 H2]. rewrite R in H1, H2.
  destruct (Rlt_or_le (Rabs (IZR z')) f64_limit) as [L|L]; [now apply H1|].
  rewrite (H2 L) in F. destruct F as [_ []].
Qed.
Print Assumptions C94_whole_float_as_text.

(** The text of any other float is refused by every integer type (the float
    itself is truncated, C10). *)
Theorem C94_fractions_are_no_integers_as_text : forall f s t, wf (VFloat f) -> into_string (VFloat f) = Ok s ->
  ~ (finite64 f /\ exists z, real f = IZR z) ->
  into_int t (VStr s) = Err (EConversion (lit "String") (type_name t) (lit "can't parse string")).
Proof. intros f s t W. exact (not_whole_text f s t W). Qed.
Print Assumptions C94_fractions_are_no_integers_as_text.

(** A boolean's text is read as the same boolean. *)
Theorem C94_bool_as_text : forall b s, into_string (VBool b) = Ok s ->
  into_bool (VStr s) = Ok b
  /\ (forall t, into_int t (VStr s) = Err (EConversion (lit "String") (type_name t) (lit "can't parse string")))
  /\ into_f64 (VStr s) = Err (EConversion (lit "String") (lit "f64") (lit "can't parse string")).
Proof. intros [|] s S; injection S as <-; (split; [reflexivity | split; [intros []; reflexivity | reflexivity]]). Qed.
Print Assumptions C94_bool_as_text.

(** A number's text is never read as a boolean (the number itself is, C14). *)
Theorem C94_numbers_are_no_booleans_as_text : forall v s, wf v ->
  (exists z src, int_value v z src) \/ (exists f, v = VFloat f) -> into_string v = Ok s ->
  into_bool (VStr s) = Err (EConversion (lit "String") (lit "bool") (lit "can't parse string as boolean")).
Proof.
  intros v s W [(z & src & I)|(f & ->)] S.
  - assert (C : canonical s z) by (destruct I; injection S as <-; apply print_int_canonical).
    apply digit_no_bool. exact (canonical_low s z C).
  - injection S as <-. pose proof (print_parse f W) as P.
    destruct f as [[|]|[|]| |sg m e]; [reflexivity..|]. apply digit_no_bool. intros c r E.
    rewrite E in P. destruct (parse_f64_accepts _ _ P) as [[_ H]|[(neg & _ & H)|(neg & d & x & u & Ws & D)]]; try discriminate.
    apply decimal_head in D. inversion Ws; subst; cbn in *; try lia.
Qed.
Print Assumptions C94_numbers_are_no_booleans_as_text.

(** Typed settings: what a Value is read as, its text is read as. *)
Theorem C94_typed_read_as_text : forall t v s d, text_safe t v -> wf v -> into_string v = Ok s ->
  de t v = Done d -> de t (VStr s) = Done d.
Proof.
  assert (Int : forall t v s d, (forall n, into_int t v = Ok n -> into_int t (VStr s) = Ok n) -> de (TInt t) v = Done d -> de (TInt t) (VStr s) = Done d).
  { intros t v s d H D. destruct t; try discriminate D; cbn [de de_int] in *; destruct (into_int _ v) as [n|] eqn:E; try discriminate D;
      now rewrite (H n eq_refl). }
  intros t v s d T W S. revert d. induction T as [t v z src I|v z src I|v z src I|f|f|t f z F E B N Fit|b|v|t s0|t v T IH|t v T IH]; intros d.
  - apply Int. intros n. apply (C94_integer_as_text v z src s W I S).
  - cbn [de]. now rewrite (proj1 (proj2 (C94_integer_as_text v z src s W I S))).
  - cbn [de]. now rewrite (proj1 (proj2 (C94_integer_as_text v z src s W I S))).
  - cbn [de]. now rewrite (C94_float_as_text f s W S).
  - cbn [de]. now rewrite (C94_float_as_text f s W S).
  - apply Int. intros n H. destruct (C94_whole_float_as_text f z F E N) as (s' & z' & S' & _ & _ & Ez & H').
    rewrite S in S'. injection S' as <-. apply H'. rewrite (Ez B).
    assert (T : truncates (real f) z).
    { rewrite E. destruct (Z_le_gt_dec 0 z); [left; split; [apply IZR_le; lia | lra] | right; split; [apply IZR_lt; lia | lra]]. }
    assert (Fi : fits I128 z).
    { apply fits_bounds. cbn [imin imax]. assert (2 ^ 53 < 2 ^ 127) by reflexivity. lia. }
    rewrite (float_fits t f z F T Fit Fi) in H. injection H as <-. auto.
  - cbn [de]. rewrite (proj1 (C94_bool_as_text b s S)). auto.
  - cbn [de]. now rewrite S.
  - injection S as <-. auto.
  - cbn [de]. destruct v; try discriminate S; intros D; unfold obind in *;
      destruct (de t _) as [d'| |] eqn:Ed; try discriminate; rewrite (IH W S d' eq_refl); exact D.
  - cbn [de]. intros D. destruct (de t v) as [d'| |] eqn:Ed; try discriminate. rewrite (IH W S d' eq_refl). exact D.
Qed.
Print Assumptions C94_typed_read_as_text.

(** So a setting can be overridden from the environment by its text. *)
Theorem C94_through_the_environment : forall w prefix p lay k t v s d, trimmed prefix p -> p <> [] ->
  layer_read w (env_layer_new prefix) = Ok lay -> last_exposed p (w_env w) k s ->
  text_safe t v -> wf v -> into_string v = Ok s -> de t v = Done d ->
  de t (v_get lay k) = Done d.
Proof.
  intros w prefix p lay k t v s d Tr Np R L T W S D.
  destruct (env_layer_read w prefix p Tr Np) as (lay' & R' & M & Wl & H). rewrite R in R'. injection R' as <-.
  assert (Hk : holds lay k (VStr s)) by (apply H; eauto).
  rewrite (v_get_holds lay k (VStr s) (wf_uniq lay Wl) Hk).
  eapply C94_typed_read_as_text; eauto.
Qed.
Print Assumptions C94_through_the_environment.

(** A float beyond 2^53: the integer nearest by is another than the one its
    text shows, and i64 saturates (C11) where the text is refused. *)
Theorem C94_large_floats_differ_refuted : exists f s z, finite64 f /\ real f = IZR z /\ into_string (VFloat f) = Ok s
  /\ into_int U64 (VFloat f) = Ok z /\ into_int U64 (VStr s) = Ok (z + 192)
  /\ into_int I64 (VFloat f) = Ok (2 ^ 63 - 1) /\ exists e, into_int I64 (VStr s) = Err e.
Proof.
  exists (S754_finite false (2 ^ 52) 11), (lit "9223372036854776000"), (2 ^ 63).
  split; [split; [reflexivity | exact I]|].
  split; [cbn [real signed_real]; change (powerRZ 2 11) with (IZR 2 ^ 11)%R; rewrite (pow_IZR 2 11), <- mult_IZR; reflexivity|].
  split; [vm_compute; reflexivity|]. split; [vm_compute; reflexivity|]. split; [vm_compute; reflexivity|].
  split; [vm_compute; reflexivity|]. eexists. vm_compute. reflexivity.
Qed.
Print Assumptions C94_large_floats_differ_refuted.

(** Minus zero and negative numbers for u64 are the other differences. *)
Example C94_example :
  into_string (VLong (- 2 ^ 100)) = Ok (lit "-1267650600228229401496703205376")
  /\ text_safe (TOption (TInt I16)) (VFloat (f64_of_Z (-300)))
  /\ into_string (VFloat (f64_of_Z (-300))) = Ok (lit "-300")
  /\ de (TOption (TInt I16)) (VStr (lit "-300")) = Done (DSome (DInt I16 (-300)))
  /\ into_string (VFloat (S754_zero true)) = Ok (lit "-0") /\ into_int U8 (VFloat (S754_zero true)) = Ok 0
  /\ (exists e, into_int U8 (VStr (lit "-0")) = Err e)
  /\ into_int U64 (VFloat (f64_of_Z (-300))) = Ok 0 /\ (exists e, into_int U64 (VStr (lit "-300")) = Err e).
Proof.
  split; [reflexivity|]. split.
  { constructor. destruct (of_Z_exact (-300)) as (F & R & _); [lia|]. apply (TsWhole I16 _ (-300) F R); [lia | left; lia|].
    split; cbn; intros; [lia | tauto]. }
  split; [vm_compute; reflexivity|]. split; [reflexivity|]. split; [reflexivity|]. split; [reflexivity|].
  split; [eexists; reflexivity|]. split; [vm_compute; reflexivity|]. eexists; reflexivity.
Qed.
