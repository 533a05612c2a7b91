(** Specification: when the members of a document read so far settle a filter. *)
From Verif Require Import Base MTokenizer SJson MLit MFastVal SFormula SEvents MExpr MTree SDoc SFilter SSat.
From Coq Require Import List NArith Arith Bool.
Import ListNotations.
Open Scope nat_scope.

(** All the paths lie below one member of the document. *)
Definition oneHead (P : list (list bytes)) : bool :=
  match P with
  | (h :: _) :: r => forallb (fun q => match q with k :: _ => bytes_eqb h k | [] => false end) r
  | _ => false
  end.

(** Every test and loop outside loops names members: none is about constants only,
    none about the document as a whole. *)
Fixpoint anchored (e : expr) : Prop :=
  match e with
  | XNot a => anchored a
  | XAnd l | XOr l => l <> [] /\ (fix go l := match l with [] => True | x :: r => anchored x /\ go r end) l
  | XExists _ | XNotExists _ | XCmp _ _ _ => pathsOf 0 e <> [] /\ ~ In [] (pathsOf 0 e)
  | XLoop _ _ (XField _ q) s => ~ In [] (loopPaths 0 q s)
  | _ => False
  end.

Section Early.
  Variable o : oracles.
  (** The object of the members read so far. *)
  Variable doc : cst.

  (** A test about one member is settled as soon as that member is there. *)
  Definition atomEarly (e : expr) : option bool :=
    if oneHead (pathsOf 0 e) then atom3 o doc 0 doc e else None.

  (** The connectives settle what the known parts settle. *)
  Fixpoint early (e : expr) : option bool :=
    match e with
    | XNot a => k_not (early a)
    | XAnd l => (fix go l := match l with [] => Some true | x :: r => k_bin BAnd (early x) (go r) end) l
    | XOr l => (fix go l := match l with [] => Some false | x :: r => k_bin BOr (early x) (go r) end) l
    | XExists _ => atomEarly e
    | XNotExists a => k_not (atomEarly (XExists a))
    | XCmp CNe l r => k_not (atomEarly (XCmp CEq l r))
    | XCmp _ _ _ => atomEarly e
    | XLoop _ _ (XField _ q) s => if oneHead (loopPaths 0 q s) then sat3 o doc 0 doc e else None
    | _ => None
    end.

  (** The answers to all the filters are settled. *)
  Definition settled (es : list expr) : Prop := Forall (fun e => e = XFalse \/ early e <> None) es.
End Early.
