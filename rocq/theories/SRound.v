(** What rounding is: to the nearest integer, halves away from zero. *)
From Verif Require Import Base MFastVal SNumber.
From Coq Require Import ZArith QArith Qabs.
Open Scope Q_scope.

Definition halfAway (v : Q) (n : Z) : Prop :=
  Qabs (v - inject_Z n) < 1 # 2 \/ Qabs (v - inject_Z n) == 1 # 2 /\ Qabs v < Qabs (inject_Z n).

(** The doubles on which the implementation is wrong: the one before 1/2, the odd
    integers between 2^52 and 2^53, and everything that does not fit 64 bits. *)
Definition beforeHalf : Q := 9007199254740991 # 18014398509481984.
Definition oddInt (v : Q) : Prop := exists k, v == inject_Z (2 * k + 1).
Definition wrongAt (v : Q) : Prop :=
  Qabs v == beforeHalf
  \/ inject_Z (2 ^ 52) < Qabs v /\ Qabs v < inject_Z (2 ^ 53) /\ oddInt v
  \/ inject_Z (2 ^ 63) < Qabs v.
(** The rest; 2^63 itself is left to the platform. *)
Definition rightAt (v : Q) : Prop := - inject_Z (2 ^ 63) <= v /\ v < inject_Z (2 ^ 63) /\ ~ wrongAt v.
