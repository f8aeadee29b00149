(** Types that convert what they read and write: serde's [from], [try_from] and
    [into] attributes on a container, as serde's derive expands them.

    [try_from = "T"]: [T::deserialize(d).and_then(|v| TryFrom::try_from(v).map_err(Error::custom))];
    [from = "T"] is the case of a conversion that never fails;
    [into = "T"]: [T::from(self.clone()).serialize(s)].
    The error of the conversion reaches the program through
    [serde::de::Error::custom], src/model/errors.rs:21-31. *)
From Coq Require Import ZArith List Bool String.
Import ListNotations.
From Verif.Model Require Import Text Num Flt Value Convert Serde Readers.

Definition de_try_from (t : rty) (conv : data -> result data str) (v : value) : mres data :=
  obind (de_r t v) (fun d => match conv d with Ok x => Done x | Err msg => Fail (EDeserialization msg) end).
Definition ser_into (t : rty) (into : data -> data) (d : data) : mres value := ser_r t (into d).
(** A type declared with [#[serde(try_from = "T", into = "T")]]. *)
Definition converted (t : rty) (conv : data -> result data str) (into : data -> data) : rty :=
  ROwn (de_try_from t conv) (ser_into t into).
