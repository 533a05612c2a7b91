(** Specification: loops whose body is a constant, among the operands of and/or. *)
From Verif Require Import Base MTokenizer SJson MFastVal SFormula SEvents MExpr MTransform MMatcher MTree SFilter SDoc SSat SSem.
From Coq Require Import List Bool Arith.
Import ListNotations.
Open Scope nat_scope.

(** The loop ranges over an array, and over at least one element. *)
Definition overArray (a : option cst) : Prop := match a with Some (CArr _ _) => True | _ => False end.
Definition overSome (a : option cst) : Prop := match a with Some (CArr (_ :: _) _) => True | _ => False end.
Definition overNone (a : option cst) : Prop := match a with Some (CArr [] _) => True | _ => False end.

(** When a loop over a constant is that constant. *)
Definition loopIsBody (doc cur : cst) (m : lmode) (i s : expr) : Prop :=
  match i with
  | XField r q =>
      match m, s with
      | LAny, XTrue => overSome (fieldAt doc cur r q)
      | LEvery, XTrue => overArray (fieldAt doc cur r q)
      | LEvery, XFalse => ~ overNone (fieldAt doc cur r q)
      | _, _ => True
      end
  | _ => s <> XTrue \/ m = LAnyEvery
  end.

(** The same for all loops reached through and/or. *)
Fixpoint constLoopsRun (doc cur : cst) (e : expr) : Prop :=
  match e with
  | XAnd l | XOr l => (fix go l := match l with [] => True | x :: r => constLoopsRun doc cur x /\ go r end) l
  | XLoop m _ i s => loopIsBody doc cur m i s
  | _ => True
  end.

(** Neither TRUE nor FALSE stands below and/or; those have operands; loops reached
    through and/or have no constant as body. *)
Fixpoint constFree (e : expr) : bool :=
  match e with
  | XTrue | XFalse => false
  | XAnd [] | XOr [] => false
  | XAnd l | XOr l => forallb constFree l
  | XLoop LAny _ _ (XTrue | XFalse) | XLoop LEvery _ _ (XTrue | XFalse) => false
  | _ => true
  end.
