(** What the text of a compiled filter says. *)
From Coq Require Import String.
From Verif Require Import Base MTokenizer MLit MFastVal SEvents SFormula MExpr SCompile MTransform MDefShow.
From Coq Require Import List NArith ZArith Arith Bool.
Import ListNotations.
Open Scope nat_scope.

(** Filters without PCRE constants. *)
Fixpoint noPcre (e : expr) : bool :=
  match e with
  | XPcre _ => false
  | XNot a | XExists a | XNotExists a => noPcre a
  | XAnd l | XOr l | XFunc _ l => forallb noPcre l
  | XLoop _ _ i s => noPcre i && noPcre s
  | XCmp _ l r => noPcre l && noPcre r
  | _ => true
  end.

(** Lines, and texts made of them. *)
Definition oneLine (s : bytes) : Prop := ~ In 10%N s.
Definition contains (s t : bytes) : Prop := exists a b, t = a ++ s ++ b.
Fixpoint textOf (lines : list bytes) : bytes :=
  match lines with
  | [] => []
  | [a] => a
  | a :: r => a ++ [10%N] ++ textOf r
  end.

(** The outline of a formula: one line per node, in pre-order, with its number, that of
    its parent, its kind, and indented by two spaces per level. *)
Definition kindWord (f : form) : bytes :=
  match f with
  | FLeaf => s2b "leaf"
  | FUn UNot _ => s2b "not"
  | FUn ULoop _ => s2b "loop"
  | FBin BOr _ _ => s2b "or"
  | FBin BAnd _ _ => s2b "and"
  | FBin BNeor _ _ => s2b "neor"
  end.
Definition outlineLine (depth parent i : nat) (f : form) : bytes :=
  repeat 32%N (2 * depth) ++ s2b "[" ++ appendUint (Z.of_nat i) ++ s2b ":" ++ appendUint (Z.of_nat parent) ++ s2b "] " ++ kindWord f.
Fixpoint outline (depth parent i : nat) (f : form) : list bytes :=
  outlineLine depth parent i f ::
  match f with
  | FLeaf => []
  | FUn _ a => outline (S depth) i (S i) a
  | FBin _ a b => outline (S depth) i (S i) a ++ outline (S depth) i (S i + fsize a) b
  end.

(** The answers: for each expression of the list, the number of its node (or a constant). *)
Fixpoint answerLines (i : nat) (l : list Z) : list bytes :=
  match l with
  | [] => []
  | z :: r => (s2b "  " ++ appendUint (Z.of_nat i) ++ s2b ": " ++ appendInt z) :: answerLines (S i) r
  end.

(** The nodes reached from the root: through elements and loops. *)
Definition childOf (d : execnode) (c : nat) : Prop :=
  (exists k, lookup k (x_elems d) = Some c)
  \/ (exists l, In l (x_loops d) /\ lp_node l = c)
  \/ (exists af l, x_after d = Some af /\ In l (af_loops af) /\ lp_node l = c).
Inductive reached (H : list execnode) : nat -> Prop :=
| re_root : reached H 0
| re_child : forall n d c, reached H n -> nth_error H n = Some d -> childOf d c -> reached H c.
Definition hasOp (d : execnode) (o : opnode) : Prop :=
  In o (x_ops d) \/ exists af, x_after d = Some af /\ In o (af_ops af).

(** The comparisons and existence tests of a filter, with the numbers of their places in the
    pre-order of its structure that starts at [i], and their operands. *)
Record cond := Cond { c_at : nat; c_op : optype; c_lhs : expr; c_rhs : option expr }.
Fixpoint conditions (i : nat) (e : expr) : list cond :=
  match e with
  | XNot a => conditions (S i) a
  | XAnd l | XOr l =>
      (fix go (i : nat) (l : list expr) : list cond :=
         match l with
         | [] => []
         | [a] => conditions i a
         | a :: r => conditions (S i) a ++ go (S i + fsize (structure a)) r
         end) i l
  | XLoop _ _ _ s => conditions (S i) s
  | XExists a => [Cond i OpExists a None]
  | XNotExists a => [Cond (S i) OpExists a None]
  | XCmp CEq l r => [Cond i OpEquals l (Some r)]
  | XCmp CNe l r => [Cond (S i) OpEquals l (Some r)]
  | XCmp CLt l r => [Cond i OpLessThan l (Some r)]
  | XCmp CLe l r => [Cond i OpLessEquals l (Some r)]
  | XCmp CGt l r => [Cond i OpGreaterThan l (Some r)]
  | XCmp CGe l r => [Cond i OpGreaterEquals l (Some r)]
  | XCmp CLike l r => [Cond i OpMatches l (Some r)]
  | _ => []
  end.
Fixpoint allConditions (i : nat) (e : expr) (es : list expr) : list cond :=
  match es with
  | [] => conditions i e
  | e' :: r => conditions (S i) e ++ allConditions (S i + fsize (structure e)) e' r
  end.

(** How the operands of conditions are written: a field as the current value or a slot; a
    constant with its type. *)
Section Text.
  Variable x : dformats.
  Variable o : oracles.
  Inductive valueText : gval -> bytes -> Prop :=
  | ct_int : forall z, valueText (GInt z) (s2b "(int)" ++ appendInt z)
  | ct_uint : forall n, valueText (GUint n) (s2b "(uint)" ++ appendUint n)
  | ct_float : forall f, valueText (GFloat f) (s2b "(float)" ++ df_float x f)
  | ct_string : forall s, valueText (GString s) (s2b "(jsonString)" ++ [34%N] ++ quote o s ++ [34%N])
  | ct_bytes : forall b, valueText (GBytes b) (s2b "(bin)" ++ [34%N] ++ b ++ [34%N])
  | ct_nil : valueText GNil (s2b "null")
  | ct_bool : forall b, valueText (GBool b) (if b then s2b "true" else s2b "false")
  | ct_other : valueText GOther (s2b "invalid")
  | ct_time : forall t, valueText (GTime t) (df_time x t).
  Inductive operandText : expr -> bytes -> Prop :=
  | ot_here : forall r p, operandText (XField r p) (s2b "@")
  | ot_slot : forall r p s, operandText (XField r p) (s2b "$" ++ appendUint (Z.of_nat s))
  | ot_func : forall n l t, argsText l t -> operandText (XFunc n l) (s2b "func:" ++ n ++ s2b "(" ++ t ++ s2b ")")
  | ot_value : forall g t, valueText g t -> operandText (XValue g) t
  | ot_time : forall s z, getNewTime o s = Some z -> operandText (XTime s) (df_time x z)
  | ot_regex : forall s, operandText (XRegex s) (s2b "(regexp)" ++ s)
  with argsText : list expr -> bytes -> Prop :=
  | at_none : argsText [] []
  | at_one : forall p t, operandText p t -> argsText [p] t
  | at_more : forall p q r t u, operandText p t -> argsText (q :: r) u -> argsText (p :: q :: r) (t ++ s2b ", " ++ u).
  (** An existence test has no second operand; the text has a mark in its place. *)
  Definition secondText (e : option expr) (t : bytes) : Prop := match e with None => t = s2b "@" | Some e => operandText e t end.
  Definition opWord (o : optype) : bytes :=
    match o with
    | OpEquals => s2b "eq" | OpLessThan => s2b "lt" | OpLessEquals => s2b "le" | OpGreaterThan => s2b "gt"
    | OpGreaterEquals => s2b "gte" | OpExists => s2b "exists" | OpMatches => s2b "matches"
    end.
  Definition condText (c : cond) (t : bytes) : Prop :=
    exists l r, operandText (c_lhs c) l /\ secondText (c_rhs c) r /\
      t = s2b "[" ++ appendUint (Z.of_nat (c_at c)) ++ s2b "] " ++ l ++ s2b " " ++ opWord (c_op c) ++ s2b " " ++ r.
End Text.
