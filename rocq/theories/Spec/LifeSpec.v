(** Vocabulary for C110: what happens to configuration files in the long run,
    over many starts of many versions of many programs, while users edit files. *)
From Coq Require Import ZArith List Bool String.
Import ListNotations.
From Verif.Model Require Import Text Value Paths Finder World Layers Config Macro.
From Verif.Spec Require Import Spec ConfigSpec PathSpec MacroSpec.

Inductive event :=
| EvStart (ms : macro_spec)       (* a run of create_config! *)
| EvCrash (ms : macro_spec)       (* such a run, cut short *)
| EvWrite (p : path) (v : value)  (* write_value on a TOML file layer *)
| EvOther.                        (* anything anybody else does *)

(** [spares tc q w e w']: the event e leads from w to w'; it is no write to the
    file at q, and what others do leaves q as it is. *)
Inductive spares (tc : codec) (q : path) : world -> event -> world -> Prop :=
| SpStart ms w cfg w' : distinct_names ms -> create_config tc ms w = Done (cfg, w') -> spares tc q w (EvStart ms) w'
| SpCrash ms dv w w' : distinct_names ms -> value_map_macro (ms_default ms) = Done dv ->
    macro_crash tc (ms_file_name ms) dv [(lit "default", LMemory dv)] w (ms_layers ms) w' -> spares tc q w (EvCrash ms) w'
| SpWrite p v r w w' : ~ same_file w p q -> layer_write w (LFile (toml_handler tc) p) v = (w', r) -> spares tc q w (EvWrite p v) w'
| SpOther w w' : w_fs w' q = w_fs w q -> spares tc q w EvOther w'.
Inductive life_sparing (tc : codec) (q : path) : world -> list event -> world -> Prop :=
| LifeNil w : life_sparing tc q w [] w
| LifeCons w e w1 es w2 : spares tc q w e w1 -> life_sparing tc q w1 es w2 -> life_sparing tc q w (e :: es) w2.

(** The start (or crash) e, leading from w1 to w2, created the file q. *)
Definition created_by (tc : codec) (q : path) (e : event) (w1 w2 : world) : Prop :=
  exists ms dv, (e = EvStart ms \/ e = EvCrash ms) /\ value_map_macro (ms_default ms) = Done dv
    /\ created tc (ms_file_name ms) dv w1 w2 (ms_layers ms) q.

(** Starts only, one after the other. *)
Inductive starts (tc : codec) : world -> list macro_spec -> world -> Prop :=
| StNil w : starts tc w [] w
| StCons w ms cfg w1 mss w2 : distinct_names ms -> create_config tc ms w = Done (cfg, w1) -> starts tc w1 mss w2 -> starts tc w (ms :: mss) w2.

(** Everything is as before, but files may have been added or changed. *)
Definition nothing_removed (w w' : world) : Prop := same_system w w' /\ forall q, missing w' q -> missing w q.
