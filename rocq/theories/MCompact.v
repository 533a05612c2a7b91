(** Model of expression_compact.go. *)
From Verif Require Import Base SEvents MExpr.
From Coq Require Import List Bool.
Import ListNotations.

(** expression_compact.go:43-61 - [compactExpressionAnyIn], [compactExpressionEveryIn]:
    the body is looked at, not compacted. *)
Definition compactLoop (e body : expr) : expr :=
  match body with
  | XTrue => XTrue
  | XFalse => XFalse
  | _ => e
  end.

Section Junctions.
  (** [CompactExpression]. *)
  Variable comp : expr -> expr.
  (** expression_compact.go:5-22 - the loop of [compactExpressionOr]; kept operands
      are appended to [new]. *)
  Fixpoint compactOr (l new : list expr) : expr :=
    match l with
    | [] => match new with [] => XFalse | _ => XOr new end
    | x :: r =>
        match comp x with
        | XTrue => XTrue
        | XFalse => compactOr r new
        | x' => compactOr r (new ++ [x'])
        end
    end.
  (** expression_compact.go:24-41 - the loop of [compactExpressionAnd]. *)
  Fixpoint compactAnd (l new : list expr) : expr :=
    match l with
    | [] => match new with [] => XTrue | _ => XAnd new end
    | x :: r =>
        match comp x with
        | XTrue => compactAnd r new
        | XFalse => XFalse
        | x' => compactAnd r (new ++ [x'])
        end
    end.
End Junctions.

(** expression_compact.go:66-79 - [CompactExpression]. *)
Fixpoint compact (e : expr) : expr :=
  match e with
  | XOr l => compactOr compact l []
  | XAnd l => compactAnd compact l []
  | XLoop LAny _ _ s => compactLoop e s
  | XLoop LEvery _ _ s => compactLoop e s
  | _ => e
  end.
