(** Specification: filters whose functions can be applied to anything. *)
From Verif Require Import Base SEvents MExpr SSat.
From Coq Require Import List Bool.
Import ListNotations.

(** Every function in an operand is one of those that accept any argument
    (so not division and modulo, which crash on zero, C37), with enough arguments. *)
Fixpoint functionsSafe (e : expr) : Prop :=
  match e with
  | XNot a => functionsSafe a
  | XAnd l | XOr l => (fix go l := match l with [] => True | x :: r => functionsSafe x /\ go r end) l
  | XLoop _ _ _ s => functionsSafe s
  | XExists a | XNotExists a => funsOk a
  | XCmp _ l r => funsOk l /\ funsOk r
  | _ => True
  end.
