(** Specification of compilation: the and/or/not/loop structure of an expression. *)
From Verif Require Import Base SFormula SMerge MExpr.
From Coq Require Import List Arith Bool.
Import ListNotations.

(** A non-empty list joined by a connective, nested to the right. *)
Fixpoint joined (o : bop) (l : list form) : form :=
  match l with
  | [] => FLeaf
  | [a] => a
  | a :: r => FBin o a (joined o r)
  end.

(** The structure of an expression: comparisons and existence tests are leaves;
    "not equal" and "not exists" are negations of leaves. *)
Fixpoint structure (e : expr) : form :=
  match e with
  | XNot a => FNot (structure a)
  | XAnd l => joined BAnd (map structure l)
  | XOr l => joined BOr (map structure l)
  | XLoop _ _ _ s => FLoop (structure s)
  | XNotExists _ => FNot FLeaf
  | XCmp CNe _ _ => FNot FLeaf
  | _ => FLeaf
  end.

(** The structure of a list of expressions compiled together. *)
Definition structures (e : expr) (es : list expr) : form := merged (structure e) (map structure es).
