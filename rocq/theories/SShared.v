(** Specification: a program run alone. *)
From Verif Require Import Base MExpr MShared.
From Coq Require Import List NArith Arith Bool.
Import ListNotations.
Open Scope nat_scope.

(** With nobody else around, a conversion reads back the number's text. *)
Fixpoint alone {A : Type} (p : prog A) : outcome A := match p with Done r => r | Conv t k => alone (k t) end.
(** How many conversions it makes, and where it stands after [n] of them. *)
Fixpoint convs {A : Type} (p : prog A) : nat := match p with Done _ => 0 | Conv t k => S (convs (k t)) end.
Fixpoint after {A : Type} (n : nat) (p : prog A) : prog A :=
  match n, p with
  | S n', Conv t k => after n' (k t)
  | _, _ => p
  end.
(** Schedules in which a conversion, once begun, is finished before anybody else's turn. *)
Definition exclusive (l : list nat) : list nat := flat_map (fun i => repeat i 5) l.

(** Filters whose comparisons never turn a number into text: one side is a constant, and
    neither is a constant text.  (LIKE takes a pattern and does not convert.) *)
Definition constant (e : expr) : bool := match e with XValue _ | XTime _ | XRegex _ | XPcre _ => true | _ => false end.
Definition constantText (e : expr) : bool := match e with XValue (GString _) => true | _ => false end.
Fixpoint calm (e : expr) : bool :=
  match e with
  | XNot a => calm a
  | XOr l | XAnd l => forallb calm l
  | XLoop _ _ _ a => calm a
  | XCmp CLike _ _ => true
  | XCmp _ l r => (constant l || constant r) && negb (constantText l) && negb (constantText r)
  | _ => true
  end.
