(** Specification: the text shown for a text filter. *)
From Coq Require Import String.
From Verif Require Import Base MTokenizer MLit MFastVal MMath MExpr MTransform MText SText MGrammar SGrammar.
From Coq Require Import List NArith ZArith Arith Lia Bool.
From Coq Require Import Floats.SpecFloat.
Import ListNotations.
Open Scope string_scope.
Open Scope list_scope.
Open Scope nat_scope.

(** ** The filter that is shown *)

(** Each filter is shown as if it were this one: numbers as their value (the sign is part
    of the number), [==] as [=], [!=] as [<>], and of arithmetic with two fields only the
    first field. *)
Definition asNum (n : num) : num :=
  match n with NInt neg z => NInt false (if neg then - z else z)%Z | NFloat neg f => NFloat false (if neg then SFopp f else f) end.
Definition asValue (v : value) : value := match v with VNum n => VNum (asNum n) | VStr s => VStr s end.
Definition asMath (m : fmath) : fmath :=
  match m with FPlain f => FPlain f | FNumL n p f => FNumL (asNum n) p f | FNumR f p n => FNumR f p (asNum n) | FTwo f _ _ => FPlain f end.
Fixpoint asCall (c : call) : call :=
  match c with
  | CPi neg => CPi neg | CE neg => CE neg | COne neg f a => COne neg f (asArg a)
  | CAtan2 neg a b => CAtan2 neg (asArg a) (asArg b) | CPow neg a b => CPow neg (asArg a) (asArg b)
  end
with asArg (a : arg) : arg := match a with ACall c => ACall (asCall c) | AField m => AField (asMath m) | AValue v => AValue (asValue v) end.
Definition asSide (s : side) : side :=
  match s with SCall c => SCall (asCall c) | SBool u b => SBool u b | SField m => SField (asMath m) | SValue v => SValue (asValue v) end.
Definition asCop (p : cop) : cop := match p with OEq _ => OEq false | ONe _ => ONe false | p => p end.
Definition asBasic (b : tbasic) : tbasic :=
  match b with
  | BConst u c => BConst u c
  | BRegex a p => BRegex (asArg a) (asValue p)
  | BRegexCall a c => BRegexCall (asArg a) (asCall c)
  | BExists f => BExists f
  | BCmp l p r => BCmp (asSide l) (asCop p) (asSide r)
  | BNull neg l => BNull neg (asSide l)
  | BMissing neg l => BMissing neg (asSide l)
  end.
Fixpoint asCond (c : cond) : cond := match c with CNot d => CNot (asCond d) | CBasic b => CBasic (asBasic b) end.
Fixpoint asShown (f : tfilter) : tfilter := match f with FOr a l => FOr (asConj a) (map asConj l) end
with asConj (c : tconj) : tconj := match c with FAnd a l => FAnd (asTerm a) (map asTerm l) end
with asTerm (t : tterm) : tterm := match t with TParen f => TParen (asShown f) | TCond c => TCond (asCond c) end.

(** ** Its text *)

(** The text of a token; behind TRUE, true, FALSE and false "(bool)" may follow. *)
Definition shown (t : token) (b : bytes) : Prop :=
  b = tk_text t \/ (In t [boolWord true true; boolWord false true; boolWord true false; boolWord false false] /\ b = tk_text t ++ s2b "(bool)").
(** Tokens one after another, with one space between two of them; it may be missing only
    next to a sign. *)
Section Spaced.
  Variable P : token -> bytes -> Prop.
  Inductive spaced : list token -> bytes -> Prop :=
  | sp_nil : spaced [] []
  | sp_one : forall t b, P t b -> spaced [t] b
  | sp_gap : forall t b u r s, P t b -> spaced (u :: r) s -> spaced (t :: u :: r) (b ++ s2b " " ++ s)
  | sp_tight : forall t b u r s, P t b -> tk_kind t = KOther \/ tk_kind u = KOther -> spaced (u :: r) s -> spaced (t :: u :: r) (b ++ s).
End Spaced.

(** No boolean constants; no arithmetic with two fields. *)
Definition sidePlain (s : side) : Prop := match s with SBool _ _ => False | _ => True end.
Definition basicPlain (b : tbasic) : Prop :=
  match b with BConst _ _ => False | BCmp l _ r => sidePlain l /\ sidePlain r | BNull _ l | BMissing _ l => sidePlain l | _ => True end.
Definition mathWhole (m : fmath) : Prop := match m with FTwo _ _ _ => False | _ => True end.
Fixpoint callWhole (c : call) : Prop :=
  match c with CPi _ | CE _ => True | COne _ _ a => argWhole a | CAtan2 _ a b | CPow _ a b => argWhole a /\ argWhole b end
with argWhole (a : arg) : Prop := match a with ACall c => callWhole c | AField m => mathWhole m | AValue _ => True end.
Definition sideWhole (s : side) : Prop := match s with SCall c => callWhole c | SField m => mathWhole m | _ => True end.
Definition basicWhole (b : tbasic) : Prop :=
  match b with
  | BConst _ _ | BExists _ => True
  | BRegex a _ => argWhole a
  | BRegexCall a c => argWhole a /\ callWhole c
  | BCmp l _ r => sideWhole l /\ sideWhole r
  | BNull _ l | BMissing _ l => sideWhole l
  end.
