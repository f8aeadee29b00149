(** Vocabulary for runs in a world shared with other processes (C75, C76). *)
From Coq Require Import ZArith List Bool String.
Import ListNotations.
From Verif.Model Require Import Text Value Merge Paths Finder World Layers Config Macro Concurrent.
From Verif.Spec Require Import Spec ConfigSpec FinderSpec PathSpec MacroSpec.
Local Open Scope nat_scope.

(** The world that answers the n-th access of a process that only reads, when it
    starts in w. *)
Fixpoint moment (others : nat -> world -> world) (w : world) (n : nat) : world :=
  match n with
  | O => others O w
  | S k => others (S k) (moment others w k)
  end.

(** [in_turn h t ls xs]: the layers ls are read one after the other, from time t
    on, and give xs: each gives what it reads in the world of one single moment,
    except that a file that was there when looked for and is gone when opened
    gives what its handler reports about a missing file. *)
Inductive in_turn (h : nat -> world) : nat -> list (str * layer) -> list (result value bak_error) -> Prop :=
| TurnEnd t : in_turn h t [] []
| TurnAt t i n l x ls xs : t <= i -> layer_read (h i) l = x -> in_turn h (S i) ls xs ->
    in_turn h t ((n, l) :: ls) (x :: xs)
| TurnConstant t n v ls xs : in_turn h t ls xs -> in_turn h t ((n, LMemory v) :: ls) (Ok v :: xs)
| TurnVanished t i n fh p ls xs : t <= i -> ~ missing (h i) p -> missing (h (S i)) p ->
    in_turn h (S (S i)) ls xs ->
    in_turn h t ((n, LFile fh p) :: ls) (fh_read fh (h (S i)) p :: xs).

(** A layer that always reads x. *)
Definition fixed_layer (x : result value bak_error) : layer :=
  LCustom {| cl_name := []; cl_has_value := fun _ => true; cl_read := fun _ => x;
             cl_can_write := false; cl_write := fun w _ => (w, Err (BLayer LWriteNotSupported)) |}.
(** The layers ls, each reading the corresponding one of xs forever. *)
Definition frozen (ls : list (str * layer)) (xs : list (result value bak_error)) (fr : list (str * layer)) : Prop :=
  map fst fr = map fst ls /\ map snd fr = map fixed_layer xs.

(** Other processes never change what is at q. *)
Definition leave_alone (others : nat -> world -> world) (q : path) : Prop :=
  forall t w, w_fs (others t w) q = w_fs w q.
(** Other processes never remove q. *)
Definition never_remove (others : nat -> world -> world) (q : path) : Prop :=
  forall t w, ~ missing w q -> ~ missing (others t w) q.
(** Other processes never make another path (a new link) lead to the file at q. *)
Definition never_redirect (others : nat -> world -> world) (q : path) : Prop :=
  forall t w p, same_file (others t w) p q -> same_file w p q.
(** Nobody else acts. *)
Definition alone : nat -> world -> world := fun _ w => w.

(** An own write: it writes the defaults to the file p of some init clause; p
    was missing one access earlier, and only the others acted in between. *)
Definition honest_write (others : nat -> world -> world) (tc : codec) (dv : value) (cs : list layer_spec) (e : write_event) : Prop :=
  exists p ls n, we_layer e = LFile (toml_handler tc) p /\ In ls cs /\ ls_init ls = Some true
    /\ missing (we_checked e) p /\ we_before e = others n (we_checked e)
    /\ we_after e = fst (layer_write (we_before e) (LFile (toml_handler tc) p) dv).

(** q holds (the beginning of) the text of the defaults. *)
Definition holds_defaults (tc : codec) (dv : value) (w : world) (q : path) : Prop :=
  exists s k, toml_to_string tc dv = Ok s /\ w_fs w q = Some (NFile (firstn k (utf8_encode s))).
