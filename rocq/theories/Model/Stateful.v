(** [BakuninConfig] with arbitrary implementations of the [ConfigLayer] trait
    (src/config_layer/layer.rs:3-13): methods take [&self], but may use interior
    mutability, global variables, files, or panic.  [S] is everything they can
    reach. *)
From Coq Require Import ZArith List Bool String.
Import ListNotations.
From Verif.Model Require Import Text Value Merge Finder World Layers Config.

(** [read_value] and [write_value], src/config_layer/layer.rs:9-12. *)
Record slayer (S : Type) := {
  sl_read : S -> S * outcome value bak_error;
  sl_write : S -> value -> S * outcome unit bak_error
}.
Arguments sl_read {S}. Arguments sl_write {S}.

(** src/config.rs:11-14. *)
Record sconfig (S : Type) := { s_names : list str; s_layers : list (str * slayer S) }.
Arguments s_names {S}. Arguments s_layers {S}.

(** [BakuninConfig::new], src/config.rs:17-22. *)
Definition s_new {S} : sconfig S := {| s_names := []; s_layers := [] |}.
(** [push_layer], src/config.rs:29-40. *)
Definition s_push {S} (c : sconfig S) (name : str) (l : slayer S) : sconfig S :=
  if mhas name (s_layers c) then c
  else {| s_names := s_names c ++ [name]; s_layers := minsert name l (s_layers c) |}.
Definition s_run {S} (h : list (str * slayer S)) : sconfig S := fold_left (fun c e => s_push c (fst e) (snd e)) h s_new.
(** [get_layer], src/config.rs:121-123. *)
Definition s_get {S} (c : sconfig S) (name : str) : option (slayer S) := mget name (s_layers c).

(** The loop of [build_value], src/config.rs:130-145. *)
Fixpoint s_build_loop {S} (s : S) (ls : list (str * slayer S)) (skip : bool) (acc : value) (names : list str)
  : S * outcome value bak_error :=
  match names with
  | [] => (s, Done acc)
  | n :: rest =>
    match mget n ls with
    | Some l =>
      match sl_read l s with
      | (s', Fail e) => if skip then s_build_loop s' ls skip acc rest else (s', Fail e)
      | (s', Done v) => s_build_loop s' ls skip (v_merge acc v) rest
      | (s', Panic) => (s', Panic)
      end
    | None => s_build_loop s ls skip acc rest
    end
  end.
(** [build_value], src/config.rs:127-148. *)
Definition s_build {S} (s : S) (c : sconfig S) (skip_on_error : bool) : S * outcome value bak_error :=
  s_build_loop s (s_layers c) skip_on_error new_map (s_names c).

(** The built-in layers (Model/Layers.v) as such implementations. *)
Definition as_slayer (l : layer) : slayer world :=
  {| sl_read := fun w => (w, match layer_read w l with Ok v => Done v | Err e => Fail e end);
     sl_write := fun w v => match layer_write w l v with (w', Ok _) => (w', Done tt) | (w', Err e) => (w', Fail e) end |}.
Definition as_sconfig (c : config) : sconfig world :=
  {| s_names := layers_names c; s_layers := map (fun e => (fst e, as_slayer (snd e))) (layers c) |}.
