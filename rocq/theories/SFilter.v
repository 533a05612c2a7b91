(** Specification: the fields of an expression, and the expressions the compiler
    handles. *)
From Verif Require Import Base MFastVal SEvents MExpr MTransform.
From Coq Require Import List NArith ZArith Arith Lia Bool.
Import ListNotations.
Open Scope nat_scope.

(** All field references, in order of occurrence. *)
Fixpoint frefs (e : expr) : list fieldref :=
  match e with
  | XField r p => [(r, p)]
  | XFunc _ l | XAnd l | XOr l => flat_map frefs l
  | XNot a | XExists a | XNotExists a => frefs a
  | XLoop _ _ i s => frefs i ++ frefs s
  | XCmp _ l r => frefs l ++ frefs r
  | _ => []
  end.

(** The paths referred to below the root [v] (0: the document). *)
Definition pathsOf (v : nat) (e : expr) : list (list bytes) :=
  map snd (filter (fun f => Nat.eqb (fst f) v) (frefs e)).

(** At least two different paths. *)
Definition two (P : list (list bytes)) : Prop := exists q1 q2, In q1 P /\ In q2 P /\ q1 <> q2.

Definition prefix_free (l : list (list bytes)) : Prop := forall p k r, In p l -> ~ In (p ++ k :: r) l.

(** Operands, below a loop over variable [cv] (0: not in a loop). *)
Fixpoint operandOk (o : oracles) (cv : nat) (e : expr) : Prop :=
  match e with
  | XField r _ => r = 0 \/ r = cv
  | XFunc _ l => (fix go l := match l with [] => True | x :: r => operandOk o cv x /\ go r end) l
  | XValue _ | XTime _ | XRegex _ | XPcre _ => exists v, constRef o e = Ok v
  | _ => False
  end.

(** The paths that decide where a loop over [q] with body [s] is attached. *)
Definition loopPaths (cv : nat) (q : list bytes) (s : expr) : list (list bytes) :=
  q :: (if Nat.eqb cv 0 then pathsOf 0 s else []).

(** Expressions that compile: connectives are not empty; fields belong to the
    document or to the innermost loop, loops run over a field of the innermost
    loop (of the document, outside loops); within one comparison no path extends
    another; no NOT EXISTS, TRUE, FALSE inside a loop; constants are legal. *)
Fixpoint compilable (o : oracles) (cv : nat) (e : expr) : Prop :=
  match e with
  | XTrue | XFalse => cv = 0
  | XNot a => compilable o cv a
  | XAnd l | XOr l => l <> [] /\ (fix go l := match l with [] => True | x :: r => compilable o cv x /\ go r end) l
  | XExists a => operandOk o cv a /\ prefix_free (pathsOf cv a)
  | XNotExists a => cv = 0 /\ operandOk o cv a /\ prefix_free (pathsOf cv a)
  | XCmp _ l r => operandOk o cv l /\ operandOk o cv r /\ prefix_free (pathsOf cv (XCmp CEq l r))
  | XLoop _ v i s =>
      v <> 0 /\ (exists q, i = XField cv q /\ prefix_free (loopPaths cv q s)) /\ compilable o v s
  | _ => False
  end.

Fixpoint allC (o : oracles) (cv : nat) (l : list expr) : Prop :=
  match l with [] => True | x :: r => compilable o cv x /\ allC o cv r end.
Fixpoint allOp (o : oracles) (cv : nat) (l : list expr) : Prop :=
  match l with [] => True | x :: r => operandOk o cv x /\ allOp o cv r end.
Lemma operandOk_func : forall o cv n l, operandOk o cv (XFunc n l) <-> allOp o cv l.
Proof. intros o cv n l. cbn [operandOk]. induction l; cbn; tauto. Qed.
Lemma compilable_and : forall o cv l, compilable o cv (XAnd l) <-> l <> [] /\ allC o cv l.
Proof. intros o cv l. cbn [compilable]. assert (forall l, (fix go l := match l with [] => True | x :: r => compilable o cv x /\ go r end) l <-> allC o cv l) as X by (induction l0; cbn; tauto). now rewrite X. Qed.
Lemma compilable_or : forall o cv l, compilable o cv (XOr l) <-> l <> [] /\ allC o cv l.
Proof. intros o cv l. cbn [compilable]. assert (forall l, (fix go l := match l with [] => True | x :: r => compilable o cv x /\ go r end) l <-> allC o cv l) as X by (induction l0; cbn; tauto). now rewrite X. Qed.
