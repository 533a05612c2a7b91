(** Specification: filters in which conditions stand where conditions belong. *)
From Verif Require Import Base SEvents MExpr.
From Coq Require Import List Bool.
Import ListNotations.

(** The operands of NOT, AND, OR, the bodies of loops and the filter itself are
    conditions (TRUE, FALSE, EXISTS, comparisons, connectives, loops), not values. *)
Fixpoint proper (e : expr) : bool :=
  match e with
  | XTrue | XFalse | XExists _ | XNotExists _ | XCmp _ _ _ => true
  | XNot a => proper a
  | XAnd l | XOr l => forallb proper l
  | XLoop _ _ _ s => proper s
  | XValue _ | XTime _ | XRegex _ | XPcre _ | XField _ _ | XFunc _ _ => false
  end.
