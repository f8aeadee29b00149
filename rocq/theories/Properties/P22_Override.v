(** C93: what a later layer does to typed data. *)
From Coq Require Import ZArith Bool String Lia Permutation.
From Coq Require Import List.
Import ListNotations.
From Verif.Model Require Import Text Num Flt Value Merge World Layers Config Convert Serde.
From Verif.Spec Require Import Spec Numerals ConfigSpec SerdeSpec ReadSpec OverrideSpec.
From Verif.Proofs Require Import Basics Merge ConfigBuild Conversions SerProofs DeProofs SerdeMore RoundTrip Loaded ReadAs Env EndToEnd Override.

(** Merging a map over a Value read as d, and reading the result as the same type. *)
Theorem C93_merging_updates_typed_data : forall t v x d, proper t -> text_maps t -> uniq v -> uniq x -> mapv v -> mapv x ->
  de t v = Done d ->
  (forall d', de t (v_merge v x) = Done d' -> updated t d x d') /\
  (forall d', updated t d x d' -> exists d'', de t (v_merge v x) = Done d'' /\ data_equiv d' d'').
Proof.
  intros t v x d P T U V Mv Mx D. rewrite <- (overlay_maps v x Mv Mx). exact (de_updated t P T v d x U V D).
Qed.
Print Assumptions C93_merging_updates_typed_data.

(** The same for a whole configuration with one more layer registered last. *)
Theorem C93_a_later_layer_updates_typed_data : forall t w c c0 r n l skip v0 x d, proper t -> text_maps t ->
  registered c0 r -> registered c (r ++ [(n, l)]) ->
  (forall n' l' y, In (n', l') (r ++ [(n, l)]) -> layer_read w l' = Ok y -> wf y) ->
  build_value w c0 skip = Ok v0 -> layer_read w l = Ok x -> mapv x -> de t v0 = Done d ->
  exists v, build_value w c skip = Ok v /\
  (forall d', de t v = Done d' -> updated t d x d') /\
  (forall d', updated t d x d' -> exists d'', de t v = Done d'' /\ data_equiv d' d'').
Proof.
  intros t w c c0 r n l skip v0 x d P T R0 R W B0 L Mx D. exists (v_merge v0 x).
  assert (Uv : uniq v0 /\ mapv v0).
  { apply (build_uniq w c0 r skip v0 R0); auto. intros n' l' y I. apply (W n'). apply in_or_app; auto. }
  destruct Uv as [U Mv]. split.
  - rewrite (build_value_list _ c _ skip R), map_app, build_list_app, <- (build_value_list _ c0 r skip R0), B0. cbn. now rewrite L.
  - rewrite <- (overlay_maps v0 x Mv Mx). apply (de_updated t P T v0 d x U); auto. apply wf_uniq, (W n l x); auto. apply in_or_app; cbn; auto.
Qed.
Print Assumptions C93_a_later_layer_updates_typed_data.

(** A map that mentions none of the fields changes nothing. *)
Theorem C93_unmentioned_structs_are_unchanged : forall fs v x d, proper (TStruct fs) -> text_maps (TStruct fs) ->
  uniq v -> uniq x -> mapv x -> (forall n t, In (n, t) fs -> lacks x n) ->
  de (TStruct fs) v = Done d -> exists d', de (TStruct fs) (v_merge v x) = Done d' /\ data_equiv d d'.
Proof.
  intros fs v x d P T U V Mx L D. assert (Mv : mapv v) by (destruct v; try discriminate; eexists; reflexivity).
  rewrite <- (overlay_maps v x Mv Mx). apply (de_updated _ P T v d x U V D).
  assert (ND : NoDup (map fst fs)) by (inversion T; auto).
  apply struct_iff in D as (l & -> & F); auto. apply UpStruct; auto. clear - L F.
  induction F as [|[n t] [n' d] fs l [E _] F IH]; cbn in *; [constructor|]. subst n'. apply UfKept; eauto.
Qed.
Print Assumptions C93_unmentioned_structs_are_unchanged.

(** Only one field is mentioned, by something that can be read: exactly that field changes. *)
Theorem C93_one_field_changes : forall fs1 n t fs2 v x y l1 d l2 d', let fs := fs1 ++ (n, t) :: fs2 in
  proper (TStruct fs) -> text_maps (TStruct fs) -> uniq v -> uniq x ->
  (forall k z, holds x k z -> k = n) -> holds x n y ->
  de (TStruct fs) v = Done (DStruct (l1 ++ (n, d) :: l2)) -> List.length l1 = List.length fs1 ->
  updated t d y d' -> exists r, de (TStruct fs) (v_merge v x) = Done r /\ data_equiv (DStruct (l1 ++ (n, d') :: l2)) r.
Proof.
  cbv zeta. intros fs1 n t fs2 v x y l1 d l2 d' P T U V O Hy D Len Up.
  assert (Mv : mapv v) by (destruct v; try discriminate; eexists; reflexivity).
  assert (Mx : mapv x) by (eapply holds_mapv; eauto).
  rewrite <- (overlay_maps v x Mv Mx). apply (de_updated _ P T v _ x U V D).
  assert (ND : NoDup (map fst (fs1 ++ (n, t) :: fs2))) by (inversion T; auto).
  apply struct_iff in D as (l & [= <-] & F); auto. apply UpStruct; auto.
  assert (L : forall k, k <> n -> lacks x k) by (intros k N z Hz; apply N; eauto).
  assert (Kept : forall fs l, ~ In n (map fst fs) -> Forall2 (field_becomes (fun t x d => de t x = Done d) v) fs l -> updated_fields fs l x l).
  { clear - L. intros fs l N F. induction F as [|[k u] [k' e] fs l [E _] F IH]; cbn in *; [constructor|]. subst k'. apply UfKept; [apply L; tauto | tauto]. }
  rewrite map_app in ND. cbn in ND. apply NoDup_remove in ND as [_ ND]. rewrite in_app_iff in ND.
  apply Forall2_app_inv_l in F as (l1' & l2' & F1 & F2 & E). inversion F2 as [|? [n' e] ? l2'' [En _] F2']; subst. cbn in En; subst n'.
  assert (EL : List.length l1 = List.length l1') by (rewrite Len; now apply Forall2_length' in F1).
  assert (E' : l1 = l1' /\ (n, d) :: l2 = (n, e) :: l2'').
  { clear - E EL. revert l1' E EL; induction l1 as [|a l1 IH]; intros [|b l1'] E EL; cbn in *; try discriminate; auto.
    injection E as -> E. injection EL as EL. destruct (IH l1' E EL) as [-> ->]. auto. }
  destruct E' as [<- [= <- <-]].
  assert (K1 : updated_fields fs1 l1 x l1) by (apply Kept; auto; tauto).
  assert (K2 : updated_fields fs2 l2 x l2) by (apply Kept; auto; tauto).
  assert (K3 : updated_fields ((n, t) :: fs2) ((n, d) :: l2) x ((n, d') :: l2)) by (now apply UfSet with y).
  now apply updated_fields_app.
Qed.
Print Assumptions C93_one_field_changes.

(** struct { name: String, db: struct { host: String, port: u16 }, tags: HashMap<String, u8>, extra: Option<Value> } *)
Definition up_db : ty := TStruct [(lit "host", TString); (lit "port", TInt U16)].
Definition up_type : ty := TStruct [(lit "name", TString); (lit "db", TNewtype up_db); (lit "tags", TMap TString (TInt U8)); (lit "extra", TOption TValue)].
Definition up_data (name : str) (port : Z) (tags : list (data * data)) : data := DStruct
  [(lit "name", DStr name); (lit "db", DNewtype (DStruct [(lit "host", DStr (lit "h")); (lit "port", DInt U16 port)]));
   (lit "tags", DMap tags); (lit "extra", DNone)].
Definition up_value : value := VMap [(lit "name", VStr (lit "n")); (lit "db", VMap [(lit "port", VInt 80); (lit "host", VStr (lit "h"))]);
  (lit "tags", VMap [(lit "a", VInt 1); (lit "b", VInt 2)])].
Definition up_patch : value := VMap [(lit "db", VMap [(lit "port", VStr (lit "8080"))]); (lit "tags", VMap [(lit "b", VInt 3); (lit "c", VInt 4)])].
Example C93_example : proper up_type /\ text_maps up_type /\ uniq up_value /\ uniq up_patch
  /\ de up_type up_value = Done (up_data (lit "n") 80 [(DStr (lit "a"), DInt U8 1); (DStr (lit "b"), DInt U8 2)])
  /\ updated up_type (up_data (lit "n") 80 [(DStr (lit "a"), DInt U8 1); (DStr (lit "b"), DInt U8 2)]) up_patch
       (up_data (lit "n") 8080 [(DStr (lit "a"), DInt U8 1); (DStr (lit "b"), DInt U8 3); (DStr (lit "c"), DInt U8 4)]).
Proof.
  assert (P : proper up_type).
  { apply PrStruct; [repeat constructor; cbn; intuition discriminate|].
    intros n t [[= <- <-]|[[= <- <-]|[[= <- <-]|[[= <- <-]|[]]]]].
    - now apply PrFlat.
    - apply PrNewtype, PrStruct; [repeat constructor; cbn; intuition discriminate|]. intros n t [[= <- <-]|[[= <- <-]|[]]]; now apply PrFlat.
    - apply PrMap; [constructor | now apply PrFlat].
    - apply PrOption; now apply PrFlat. }
  assert (T : text_maps up_type).
  { apply TmStruct; [repeat constructor; cbn; intuition discriminate|].
    intros n t [[= <- <-]|[[= <- <-]|[[= <- <-]|[[= <- <-]|[]]]]]; try (repeat constructor; fail).
    apply TmNewtype, TmStruct; [repeat constructor; cbn; intuition discriminate|]. intros n t [[= <- <-]|[[= <- <-]|[]]]; constructor. }
  assert (U : forall v, wf v -> uniq v) by apply wf_uniq.
  assert (Uv : uniq up_value) by (apply U; cbn; repeat split; repeat constructor; cbn; intuition discriminate).
  assert (Up : uniq up_patch) by (apply U; cbn; repeat split; repeat constructor; cbn; intuition discriminate).
  split; [exact P|]. split; [exact T|]. split; [exact Uv|]. split; [exact Up|]. split; [reflexivity|].
  apply (de_updated up_type P T up_value _ up_patch Uv Up); reflexivity.
Qed.
