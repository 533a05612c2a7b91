(** Model of expressionstats.go. *)
From Verif Require Import Base SEvents MExpr.
From Coq Require Import List Arith Bool.
Import ListNotations.

(** expressionstats.go:7-15. *)
Record stats := Stats {
  numLoops : nat;
  numNestedLoops : nat;
  maxLoopDepth : nat;
  numAnds : nat;
  numOrs : nat;
  numFields : nat;
  numValues : nat }.

(** The zero value of the struct. *)
Definition noStats : stats := Stats 0 0 0 0 0 0 0.

(** expressionstats.go:29-32. *)
Definition seeDepth (st : stats) (d : nat) : stats :=
  if maxLoopDepth st <? d
  then Stats (numLoops st) (numNestedLoops st) d (numAnds st) (numOrs st) (numFields st) (numValues st)
  else st.
(** expressionstats.go:36. *)
Definition addField (st : stats) : stats :=
  Stats (numLoops st) (numNestedLoops st) (maxLoopDepth st) (numAnds st) (numOrs st) (S (numFields st)) (numValues st).
(** expressionstats.go:38. *)
Definition addValue (st : stats) : stats :=
  Stats (numLoops st) (numNestedLoops st) (maxLoopDepth st) (numAnds st) (numOrs st) (numFields st) (S (numValues st)).
(** expressionstats.go:44. *)
Definition addAnd (st : stats) : stats :=
  Stats (numLoops st) (numNestedLoops st) (maxLoopDepth st) (S (numAnds st)) (numOrs st) (numFields st) (numValues st).
(** expressionstats.go:49. *)
Definition addOr (st : stats) : stats :=
  Stats (numLoops st) (numNestedLoops st) (maxLoopDepth st) (numAnds st) (S (numOrs st)) (numFields st) (numValues st).
(** expressionstats.go:54-57, 61-64, 68-71. *)
Definition addLoop (st : stats) (d : nat) : stats :=
  Stats (S (numLoops st)) (if Nat.eqb d 1 then S (numNestedLoops st) else numNestedLoops st)
        (maxLoopDepth st) (numAnds st) (numOrs st) (numFields st) (numValues st).

(** expressionstats.go:29-101 - [scanOne].  The errors it ignores are always nil. *)
Fixpoint scanOne (st : stats) (e : expr) (d : nat) : outcome stats :=
  let scanAll := fix go (st : stats) (l : list expr) : outcome stats :=
    match l with
    | [] => Ok st
    | x :: r => do st' <- scanOne st x d; go st' r
    end in
  let st := seeDepth st d in
  match e with
  | XField _ _ => Ok (addField st)
  | XValue _ => Ok (addValue st)
  | XFunc _ l => scanAll st l
  | XAnd l => scanAll (addAnd st) l
  | XOr l => scanAll (addOr st) l
  | XLoop _ _ i s => do st' <- scanOne (addLoop st d) i d; scanOne st' s (S d)
  | XExists a => scanOne st a d
  | XNotExists a => scanOne st a d
  | XCmp CLike _ _ => Panic (* line 97: LikeExpr has no case *)
  | XCmp _ l r => do st' <- scanOne st l d; scanOne st' r d
  | XTrue | XFalse | XTime _ | XRegex _ | XPcre _ | XNot _ => Panic (* line 97 *)
  end.

(** expressionstats.go:103-105 - [Scan]. *)
Definition scan (st : stats) (e : expr) : outcome stats := scanOne st e 0.
