(** Abbreviations for concrete filters in examples. *)
From Coq Require Import String.
From Verif Require Import Base MFastVal SEvents MExpr MBinTree MTransform MMatcher.
From Coq Require Import List NArith ZArith Arith Bool.
Import ListNotations.
Open Scope nat_scope.

(** The field [p] of variable [r]; integer, boolean constants. *)
Definition fld (r : nat) (p : list string) : expr := XField r (map s2b p).
Definition ci (z : Z) : expr := XValue (GInt z).
Definition cb (b : bool) : expr := XValue (GBool b).

(** Compile, then match one document with a fresh matcher. *)
Definition run (o : oracles) (es : list expr) (doc : string) : outcome (option bool) :=
  do D <- transform o es; do (s, r) <- match_ 100 o D (s2b doc) (newMatcher D); Ok r.
(** The same, then ask for each expression. *)
Definition runEach (o : oracles) (es : list expr) (doc : string) : outcome (list (outcome bool)) :=
  do D <- transform o es; do (s, r) <- match_ 100 o D (s2b doc) (newMatcher D);
  Ok (map (expressionMatched D s) (seq 0 (length es))).
