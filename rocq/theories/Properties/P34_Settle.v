(** C111: typed settings out of many layers. *)
From Coq Require Import ZArith Bool String Lia Permutation.
From Coq Require Import List.
Import ListNotations.
From Verif.Model Require Import Text Num Flt Value Merge World Layers Config Convert Serde.
From Verif.Spec Require Import Spec Numerals ConfigSpec SerdeSpec ReadSpec SettleSpec.
From Verif.Proofs Require Import Basics Merge ConfigBuild Conversions SerProofs DeProofs SerdeMore RoundTrip Loaded ReadAs Override Settle.

(** [r] are the registered layers, [r'] those that can be read, [vs] what they
    read, [ms] the maps among these. *)
Theorem C111_typed_settings_from_all_layers : forall t w c r r' vs ms skip v, proper t -> text_maps t ->
  registered c r -> without_failing w r r' -> reads w r' (map Ok vs) -> (forall x, In x vs -> wf x) -> only_maps vs ms ->
  build_value w c skip = Ok v ->
  (forall d, de t v = Done d -> settled t ms d) /\
  (forall d, settled t ms d -> exists d', de t v = Done d' /\ data_equiv d d').
Proof.
  intros t w c r r' vs ms skip v P T R F Rd W O B. destruct (build_reads _ _ _ _ _ _ _ _ R F Rd W O B) as [-> L].
  exact (de_settled t P T ms L).
Qed.
Print Assumptions C111_typed_settings_from_all_layers.

(** If nothing is settled, the read is an error (never a panic). *)
Theorem C111_unreadable_exactly : forall t w c r r' vs ms skip v, proper t -> text_maps t -> no_enum t ->
  registered c r -> without_failing w r r' -> reads w r' (map Ok vs) -> (forall x, In x vs -> wf x) -> only_maps vs ms ->
  build_value w c skip = Ok v ->
  ((exists e, de t v = Fail e) <-> forall d, ~ settled t ms d).
Proof.
  intros t w c r r' vs ms skip v P T NE R F Rd W O B.
  destruct (C111_typed_settings_from_all_layers t w c r r' vs ms skip v P T R F Rd W O B) as [H1 H2]. split.
  - intros [e E] d S. destruct (H2 d S) as (d' & D & _). congruence.
  - intros N. destruct (de t v) as [d|e|] eqn:E; [exfalso; exact (N d (H1 d eq_refl)) | eauto | exfalso; exact (de_no_panic t NE v E)].
Qed.
Print Assumptions C111_unreadable_exactly.

(** A field of a simple type (no map inside outside of lists) comes from the
    last layer that mentions it, whatever the others say. *)
Theorem C111_the_last_mention_decides : forall w c r r' vs ms skip v fs l n t cs x, proper (TStruct fs) -> text_maps (TStruct fs) ->
  registered c r -> without_failing w r r' -> reads w r' (map Ok vs) -> (forall x, In x vs -> wf x) -> only_maps vs ms ->
  build_value w c skip = Ok v -> de (TStruct fs) v = Done (DStruct l) ->
  In (n, t) fs -> leaf_type t -> defs n ms (cs ++ [x]) ->
  exists d, In (n, d) l /\ reads_as t x d /\ forall d', In (n, d') l -> d' = d.
Proof.
  intros w c r r' vs ms skip v fs l n t cs x P T R F Rd W O B D Hn Lf Df.
  destruct (build_reads _ _ _ _ _ _ _ _ R F Rd W O B) as [-> L].
  assert (ND : NoDup (map fst fs)) by (inversion T; auto).
  pose proof (proj1 (de_settled _ P T ms L) _ D) as S. inversion S as [| |? ? ? SF| |]; subst.
  assert (Nl : map fst l = map fst fs) by (clear - SF; induction SF; cbn; congruence).
  assert (Hl : In n (map fst l)) by (rewrite Nl; apply (in_map fst) in Hn; exact Hn).
  apply in_map_iff in Hl as ([n' d] & E & Hl). cbn in E; subst n'. exists d. split; auto. split.
  - destruct (settled_field ms fs l n t d ND SF Hn Hl) as [(c0 & cs0 & D0 & S0)|(D0 & _)].
    + rewrite <- (defs_fun _ _ _ _ L Df D0) in S0. apply leaf_place in S0; tauto.
    + pose proof (defs_fun _ _ _ _ L Df D0) as E. destruct cs; discriminate.
  - intros d' Hd'. rewrite <- Nl in ND. exact (nodup_fst l n d' d ND Hd' Hl).
Qed.
Print Assumptions C111_the_last_mention_decides.

(** So two configurations in which the last mention of every field is the same
    are read alike, whatever the earlier layers of either say. *)
Theorem C111_shadowed_values_do_not_matter : forall w c r r' vs ms skip v w2 c2 r2 r2' vs2 ms2 skip2 v2 fs d,
  proper (TStruct fs) -> text_maps (TStruct fs) -> (forall n t, In (n, t) fs -> leaf_type t) ->
  registered c r -> without_failing w r r' -> reads w r' (map Ok vs) -> (forall x, In x vs -> wf x) -> only_maps vs ms ->
  build_value w c skip = Ok v ->
  registered c2 r2 -> without_failing w2 r2 r2' -> reads w2 r2' (map Ok vs2) -> (forall x, In x vs2 -> wf x) -> only_maps vs2 ms2 ->
  build_value w2 c2 skip2 = Ok v2 ->
  (forall n t, In (n, t) fs -> (defs n ms [] <-> defs n ms2 []) /\
     forall x, (exists cs, defs n ms (cs ++ [x])) <-> exists cs, defs n ms2 (cs ++ [x])) ->
  de (TStruct fs) v = Done d -> exists d', de (TStruct fs) v2 = Done d' /\ data_equiv d d'.
Proof.
  intros w c r r' vs ms skip v w2 c2 r2 r2' vs2 ms2 skip2 v2 fs d P T Lf R F Rd W O B R2 F2 Rd2 W2 O2 B2 Same D.
  destruct (build_reads _ _ _ _ _ _ _ _ R F Rd W O B) as [-> L].
  destruct (build_reads _ _ _ _ _ _ _ _ R2 F2 Rd2 W2 O2 B2) as [-> L2].
  apply (de_settled _ P T ms2 L2). pose proof (proj1 (de_settled _ P T ms L) _ D) as S. inversion S as [| |? ? l SF| |]; subst.
  constructor. clear P T D S. induction SF as [ms|ms n t fs c0 cs d l Df Sd SF IH|ms n u fs l Df SF IH]; [constructor| |].
  - destruct (Same n t (or_introl eq_refl)) as [_ S2]. destruct (snoc_case (c0 :: cs)) as (cs' & x & E); [discriminate|].
    rewrite E in Df, Sd. destruct (proj1 (S2 x) (ex_intro _ cs' Df)) as (cs2 & D2).
    apply leaf_place in Sd; [|eapply Lf; left; reflexivity]. apply (leaf_place t cs2) in Sd; [|eapply Lf; left; reflexivity].
    destruct (cs2 ++ [x]) as [|y ys] eqn:E2; [destruct cs2; discriminate|]. eapply SfSet; eauto.
    apply IH; auto; intros; [eapply Lf | eapply Same]; right; eauto.
  - apply SfMissing; [apply (proj1 (Same n _ (or_introl eq_refl))); auto|]. apply IH; auto; intros; [eapply Lf | eapply Same]; right; eauto.
Qed.
Print Assumptions C111_shadowed_values_do_not_matter.

(** What is settled is settled uniquely (up to the listing order of maps). *)
Theorem C111_settled_uniquely : forall t ms d d', proper t -> text_maps t -> (forall v, In v ms -> mapv v /\ uniq v) ->
  settled t ms d -> settled t ms d' -> exists e, data_equiv d e /\ data_equiv d' e.
Proof.
  intros t ms d d' P T L S S'. destruct (de_settled t P T ms L) as [_ H]. destruct (H d S) as (e & E & Q). destruct (H d' S') as (e' & E' & Q').
  exists e. split; auto. congruence.
Qed.
Print Assumptions C111_settled_uniquely.

(** struct { name: String, db: struct { host: String, port: u16 }, tags: HashMap<String, u8> } out of
    defaults, a broken layer, a layer that replaces db by false, and two more. *)
Definition sl_type : ty := TStruct [(lit "name", TString);
  (lit "db", TStruct [(lit "host", TString); (lit "port", TOption (TInt U16))]); (lit "tags", TMap TString (TInt U8))].
Definition sl_maps : list value :=
  [VMap [(lit "name", VArr []); (lit "db", VMap [(lit "host", VStr (lit "old")); (lit "port", VInt 80)]); (lit "tags", VMap [(lit "a", VInt 1)])];
   VMap [(lit "db", VBool false)];
   VMap [(lit "db", VMap [(lit "host", VStr (lit "h"))]); (lit "name", VStr (lit "n"))];
   VMap [(lit "tags", VMap [(lit "a", VInt 2); (lit "b", VInt 3)]); (lit "name", VBool true)]].
Definition sl_data : data := DStruct [(lit "name", DStr (lit "true"));
  (lit "db", DStruct [(lit "host", DStr (lit "h")); (lit "port", DNone)]);
  (lit "tags", DMap [(DStr (lit "a"), DInt U8 2); (DStr (lit "b"), DInt U8 3)])].
Definition sl_layers : list (str * layer) :=
  (lit "1", LMemory (nth 0 sl_maps VNone)) :: (lit "x", env_layer_new (lit " ")) :: (lit "2", LMemory (nth 1 sl_maps VNone))
  :: (lit "s", LMemory (VStr (lit "junk"))) :: (lit "3", LMemory (nth 2 sl_maps VNone)) :: (lit "4", LMemory (nth 3 sl_maps VNone)) :: [].
Definition sl_world : world :=
  {| w_files := fun _ => None; w_target := fun p => p; w_can_read := fun _ => true; w_can_open := fun _ => true;
     w_room := fun _ => None; w_env := []; w_platform := {| Finder.pf_base := None; Finder.pf_cwd := None |} |}.
Definition sl_config : config := {| layers_names := map fst sl_layers; layers := rev sl_layers |}.
Example C111_example : proper sl_type /\ text_maps sl_type /\ no_enum sl_type /\ registered sl_config sl_layers
  /\ without_failing sl_world sl_layers (filter (fun e => negb (str_eqb (fst e) (lit "x"))) sl_layers)
  /\ reads sl_world (filter (fun e => negb (str_eqb (fst e) (lit "x"))) sl_layers)
       (map Ok [nth 0 sl_maps VNone; nth 1 sl_maps VNone; VStr (lit "junk"); nth 2 sl_maps VNone; nth 3 sl_maps VNone])
  /\ only_maps [nth 0 sl_maps VNone; nth 1 sl_maps VNone; VStr (lit "junk"); nth 2 sl_maps VNone; nth 3 sl_maps VNone] sl_maps
  /\ (forall v, In v sl_maps -> wf v)
  /\ (exists v, build_value sl_world sl_config true = Ok v /\ de sl_type v = Done sl_data)
  /\ settled sl_type sl_maps sl_data
  /\ leaf_type TString /\ defs (lit "name") sl_maps ([VArr []; VStr (lit "n")] ++ [VBool true]).
Proof.
  assert (P : proper sl_type).
  { apply PrStruct; [repeat constructor; cbn; intuition discriminate|].
    intros n t [[= <- <-]|[[= <- <-]|[[= <- <-]|[]]]].
    - now apply PrFlat.
    - apply PrStruct; [repeat constructor; cbn; intuition discriminate|]. intros n t [[= <- <-]|[[= <- <-]|[]]]; [now apply PrFlat | apply PrOption; now apply PrFlat].
    - apply PrMap; [constructor | now apply PrFlat]. }
  assert (T : text_maps sl_type).
  { apply TmStruct; [repeat constructor; cbn; intuition discriminate|].
    intros n t [[= <- <-]|[[= <- <-]|[[= <- <-]|[]]]]; try (repeat constructor; fail).
    apply TmStruct; [repeat constructor; cbn; intuition discriminate|]. intros n t [[= <- <-]|[[= <- <-]|[]]]; repeat constructor. }
  assert (W : forall v, In v sl_maps -> wf v).
  { intros v [<-|[<-|[<-|[<-|[]]]]]; cbn; repeat split; repeat constructor; cbn; intuition discriminate. }
  assert (L : layer_maps sl_maps).
  { intros v Hv. split; [|apply wf_uniq; auto]. destruct Hv as [<-|[<-|[<-|[<-|[]]]]]; eexists; reflexivity. }
  split; [exact P|]. split; [exact T|]. split; [|split; [|split; [|split; [|split; [|split; [|split; [|split; [|split]]]]]]]].
  - apply NeStruct. intros n t [[= <- <-]|[[= <- <-]|[[= <- <-]|[]]]]; try (repeat constructor; fail).
    apply NeStruct. intros n t [[= <- <-]|[[= <- <-]|[]]]; repeat constructor.
  - split; [reflexivity|]. split; [repeat constructor; cbn; intuition discriminate|]. apply Permutation_sym, Permutation_rev.
  - cbn [filter sl_layers fst]. apply (WfKeep _ (lit "1", _) _ _ (nth 0 sl_maps VNone)); [reflexivity|].
    eapply WfDrop; [reflexivity|]. repeat (eapply WfKeep; [reflexivity|]). constructor.
  - repeat constructor.
  - repeat first [apply OmMap; [eexists; reflexivity|] | apply OmSkip; [intros [? E]; discriminate|]]. constructor.
  - exact W.
  - eexists. split; reflexivity.
  - apply (de_settled sl_type P T sl_maps L). reflexivity.
  - apply LfFlat. exact I.
  - cbn [app]. apply DefsHave; [apply holds_map; left; reflexivity|]. apply DefsLack; [apply lacks_mget; reflexivity|].
    apply DefsHave; [apply holds_map; right; left; reflexivity|]. apply DefsHave; [apply holds_map; right; left; reflexivity|]. constructor.
Qed.
