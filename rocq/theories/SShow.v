(** Expressions whose shown text can be read again. *)
From Coq Require Import String.
From Verif Require Import Base MTokenizer MLit MFastVal SEvents MExpr.
From Coq Require Import List NArith ZArith Arith Bool.
Import ListNotations.
Open Scope nat_scope.

(** A word: not empty, without white space, parentheses, commas, $ and the signs of
    comparisons. *)
Definition plainWord (w : list N) : Prop := w <> [] /\ Forall (fun c => ~ In c [10; 32; 33; 36; 40; 41; 44; 60; 61; 62]%N) w.
Definition plainName (w : list N) : Prop := plainWord w /\ ~ In 46%N w.

Definition constant (e : expr) : Prop := match e with XValue _ | XTime _ | XRegex _ | XPcre _ => True | _ => False end.

(** [show]: the shown text.  A set of constants that can be told apart by it. *)
Definition legible (show : expr -> list N) (K : expr -> Prop) : Prop :=
  (forall e, K e -> constant e /\ plainWord (show e)) /\ (forall e e', K e -> K e' -> show e = show e' -> e = e').

Section Sentence.
  Variable K : expr -> Prop.
  (** What is compared: constants of the set, fields and calls. *)
  Fixpoint phrase (e : expr) : Prop :=
    match e with
    | XValue _ | XTime _ | XRegex _ | XPcre _ => K e
    | XField _ p => Forall plainName p
    | XFunc n l => plainWord n /\ (fix go l := match l with [] => True | a :: r => phrase a /\ go r end) l
    | _ => False
    end.
  (** Tests joined by AND, OR, NOT and loops over fields. *)
  Fixpoint sentence (e : expr) : Prop :=
    match e with
    | XTrue | XFalse => True
    | XNot a => sentence a
    | XAnd l | XOr l => l <> [] /\ (fix go l := match l with [] => True | a :: r => sentence a /\ go r end) l
    | XLoop _ _ i s => (exists r p, i = XField r p /\ Forall plainName p) /\ sentence s
    | XExists a | XNotExists a => phrase a /\ ~ constant a
    | XCmp _ l r => phrase l /\ phrase r
    | _ => False
    end.
End Sentence.

(** Groups of one member are the member. *)
Fixpoint ungroup (e : expr) : expr :=
  match e with
  | XNot a => XNot (ungroup a)
  | XAnd [a] | XOr [a] => ungroup a
  | XAnd l => XAnd (map ungroup l)
  | XOr l => XOr (map ungroup l)
  | XLoop m v i s => XLoop m v i (ungroup s)
  | _ => e
  end.
