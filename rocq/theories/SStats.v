(** Specification: the parts of an expression, each with the number of loop bodies
    it lies in. *)
From Verif Require Import Base SEvents MExpr.
From Coq Require Import List Arith Bool.
Import ListNotations.

Fixpoint parts (d : nat) (e : expr) : list (nat * expr) :=
  (d, e) ::
  match e with
  | XNot a | XExists a | XNotExists a => parts d a
  | XAnd l | XOr l | XFunc _ l => flat_map (parts d) l
  | XCmp _ l r => parts d l ++ parts d r
  | XLoop _ _ i s => parts d i ++ parts (S d) s
  | _ => []
  end.

Definition isField (p : nat * expr) : bool := match snd p with XField _ _ => true | _ => false end.
Definition isValue (p : nat * expr) : bool := match snd p with XValue _ => true | _ => false end.
Definition isAnd (p : nat * expr) : bool := match snd p with XAnd _ => true | _ => false end.
Definition isOr (p : nat * expr) : bool := match snd p with XOr _ => true | _ => false end.
Definition isLoop (p : nat * expr) : bool := match snd p with XLoop _ _ _ _ => true | _ => false end.
(** A loop in the body of another one. *)
Definition isNested (p : nat * expr) : bool := isLoop p && negb (fst p =? 0).
(** A loop in the body of exactly one other. *)
Definition isNestedOnce (p : nat * expr) : bool := isLoop p && (fst p =? 1).
(** The kinds of nodes the statistics know. *)
Definition counted (p : nat * expr) : bool :=
  match snd p with
  | XTrue | XFalse | XTime _ | XRegex _ | XPcre _ | XNot _ | XCmp CLike _ _ => false
  | _ => true
  end.

Definition count (f : nat * expr -> bool) (e : expr) : nat := length (filter f (parts 0 e)).
Definition depth (e : expr) : nat := list_max (map fst (parts 0 e)).
