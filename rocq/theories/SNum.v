(** Specification: which mathematical integer a value denotes, and exact integer
    arithmetic. *)
From Verif Require Import Base MFastVal.
From Coq Require Import List NArith ZArith Lia.
Import ListNotations.
Open Scope Z_scope.

(** [holds v a]: the value [v] is the integer [a].  Textual integers are read in
    base ten by strconv. *)
Inductive holds : fval -> Z -> Prop :=
| h_int : forall z, - 2 ^ 63 <= z < 2 ^ 63 -> holds (VInt z) z
| h_uint : forall n, 0 <= n < 2 ^ 64 -> holds (VUint n) n
| h_jint : forall b z, parseInt10 b = (z, true) -> holds (VJsonInt b) z
| h_juint : forall b n, parseUint10 b = (n, true) -> holds (VJsonUint b) n.

Inductive aop := OAdd | OSub | OMul | ODiv | OMod.

(** The exact result: division truncates towards zero, the remainder has the
    sign of the dividend, and both are undefined on a zero divisor. *)
Definition exact (p : aop) (a b : Z) : option Z :=
  match p with
  | OAdd => Some (a + b)
  | OSub => Some (a - b)
  | OMul => Some (a * b)
  | ODiv => if Z.eq_dec b 0 then None else Some (Z.quot a b)
  | OMod => if Z.eq_dec b 0 then None else Some (Z.rem a b)
  end.

(** [x] is [e] reduced to the 64-bit range [lo, lo + 2^64). *)
Definition reduced (lo e x : Z) : Prop := lo <= x < lo + 2 ^ 64 /\ exists k, x = e + k * 2 ^ 64.
