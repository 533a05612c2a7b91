(** What it means for a result to be correctly rounded: to the nearest double, and of
    two equally near to the one with an even mantissa. *)
From Verif Require Import Base MFastVal SNumber.
From Coq Require Import ZArith QArith Qabs.
From Coq Require Import Floats.SpecFloat.
Open Scope Q_scope.

Definition evenMantissa (f : float) : Prop := match f with S754_finite _ m _ => Z.even (Zpos m) = true | _ => True end.
Definition nearestEven (r : float) (v : Q) : Prop :=
  nearest r v /\ forall g, finite g -> ~ valQ g == valQ r -> Qabs (valQ g - v) == Qabs (valQ r - v) -> evenMantissa r.
(** Half a step above the largest double; from there on a result is infinite. *)
Definition overflow : Q := inject_Z ((2 ^ 54 - 1) * 2 ^ 970).
(** Between the first twenty decimals of pi and the next number of twenty decimals. *)
Definition aboutPi (p : Q) : Prop := (314159265358979323846 # 100000000000000000000) <= p <= (314159265358979323847 # 100000000000000000000).
(** Neither too small nor too large, or nothing. *)
Definition moderate (v : Q) : Prop := v == 0 \/ (1 # (2 ^ 1000)) <= Qabs v <= inject_Z (2 ^ 1000).
