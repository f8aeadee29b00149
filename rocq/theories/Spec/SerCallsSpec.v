(** What a hand-written [Serialize] implementation builds (C97). *)
From Coq Require Import ZArith List Bool String.
Import ListNotations.
From Verif.Model Require Import Text Num Flt Value Convert Serde SerCalls.
From Verif.Spec Require Import Spec.
Local Open Scope Z_scope.

(** A key argument that has the text k: it serialises to a Value that converts to k. *)
Definition key_text (arg : mres value) (k : str) : Prop := exists v, arg = Done v /\ into_string v = Ok k.

(** The key waiting for a value after the calls cs: the last key with a text,
    unless a value call came after it. *)
Definition pending (cs : list smap_call) (k : str) : Prop :=
  exists before arg after, cs = before ++ SKey arg :: after /\ key_text arg k /\
    forall c, In c after -> exists arg', c = SKey arg' /\ forall k', ~ key_text arg' k'.

(** The entries written by the calls cs, in order. *)
Inductive writes : list smap_call -> list (str * value) -> Prop :=
| WrNil : writes [] []
| WrWrite cs h k x : writes cs h -> pending cs k -> writes (cs ++ [SValue (Done x)]) (h ++ [(k, x)])
| WrOther cs h c : writes cs h -> (forall x, c <> SValue (Done x)) -> writes (cs ++ [c]) h.

(** What call c answers after the calls cs. *)
Inductive answer (cs : list smap_call) : smap_call -> reply -> Prop :=
| AnKey arg k : key_text arg k -> answer cs (SKey arg) ROk
| AnKeyFails e : answer cs (SKey (Fail e)) (RErr e)
| AnKeyNoText v e : into_string v = Err e -> answer cs (SKey (Done v)) (RErr e)
| AnKeyPanics : answer cs (SKey Panic) RPanic
| AnValue k x : pending cs k -> answer cs (SValue (Done x)) ROk
| AnValueFails k e : pending cs k -> answer cs (SValue (Fail e)) (RErr e)
| AnValuePanics k : pending cs k -> answer cs (SValue Panic) RPanic
| AnNoKey arg : (forall k, ~ pending cs k) -> answer cs (SValue arg) RPanic.

(** The answer is that of the argument. *)
Definition same_answer (arg : mres value) : reply :=
  match arg with Done _ => ROk | Fail e => RErr e | Panic => RPanic end.
(** A field answers as its argument; a skipped field is accepted. *)
Definition field_answer (c : sfield_call) : reply := match c with SField _ arg => same_answer arg | SSkip _ => ROk end.
(** The arguments that were serialised. *)
Inductive successes : list (mres value) -> list value -> Prop :=
| SuNil : successes [] []
| SuDone x l r : successes l r -> successes (Done x :: l) (x :: r)
| SuFail e l r : successes l r -> successes (Fail e :: l) r.
Inductive field_writes : list sfield_call -> list (str * value) -> Prop :=
| FwNil : field_writes [] []
| FwDone n x cs h : field_writes cs h -> field_writes (SField n (Done x) :: cs) ((n, x) :: h)
| FwFail n e cs h : field_writes cs h -> field_writes (SField n (Fail e) :: cs) h
| FwSkip n cs h : field_writes cs h -> field_writes (SSkip n :: cs) h.
