(** Specification of merged expressions and of the array layout of formulas. *)
From Verif Require Import Base MBinTree SFormula.
From Coq Require Import List Arith Lia Bool.
Import ListNotations.

(** Several formulas side by side: the first, then the rest, joined by
    never-early-out disjunctions. *)
Fixpoint merged (e : form) (es : list form) : form :=
  match es with
  | [] => e
  | e' :: r => FNeor e (merged e' r)
  end.

(** Where each of them starts. *)
Fixpoint mbuckets (i : nat) (e : form) (es : list form) : list (nat * form) :=
  match es with
  | [] => [(i, e)]
  | e' :: r => (S i, e) :: mbuckets (S i + fsize e) e' r
  end.

(** The node array of a formula: pre-order, parent and child links. *)
Fixpoint lay (p i : nat) (t : form) : list node :=
  match t with
  | FLeaf => [Node NLeaf p 0 0]
  | FNot a => Node NNot p (S i) 0 :: lay i (S i) a
  | FLoop a => Node NLoop p (S i) 0 :: lay i (S i) a
  | FBin o a b =>
      Node (match o with BOr => NOr | BAnd => NAnd | BNeor => NNeor end) p (S i) (S i + fsize a)
      :: lay i (S i) a ++ lay i (S i + fsize a) b
  end.

(** What validation looks at: pre-order arrangement of kinds and parents; child
    links are only required to be in range. *)
Fixpoint shaped (T : list node) (p i : nat) (t : form) : Prop :=
  match t with
  | FLeaf => exists l r, nth_error T i = Some (Node NLeaf p l r)
  | FUn o a =>
      (exists l, nth_error T i = Some (Node (match o with UNot => NNot | ULoop => NLoop end) p l 0)
                 /\ 0 < l < length T)
      /\ shaped T i (S i) a
  | FBin o a b =>
      (exists l r, nth_error T i = Some (Node (match o with BOr => NOr | BAnd => NAnd | BNeor => NNeor end) p l r)
                   /\ 0 < l < length T /\ 0 < r < length T)
      /\ shaped T i (S i) a /\ shaped T i (S i + fsize a) b
  end.

(** Formulas without the never-early-out disjunction. *)
Fixpoint neor_free (t : form) : bool :=
  match t with
  | FLeaf => true
  | FNot a => neor_free a
  | FLoop _ => true
  | FBin o a b => match o with BNeor => false | _ => neor_free a && neor_free b end
  end.
