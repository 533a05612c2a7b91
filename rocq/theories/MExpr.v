(** Model of expression.go and expression_utils.go: filter expressions and the
    collection of the fields they mention. *)
From Coq Require Import String.
From Verif Require Import Base MTokenizer MLit MFastVal SEvents.
From Coq Require Import List NArith ZArith Arith Lia Bool.
Import ListNotations.

(** The dynamic types [NewFastVal] distinguishes (fastval.go:933-978), with Go's
    sized integer types merged.  [GOther] is any other Go value. *)
Inductive gval :=
| GInt (z : Z) | GUint (n : Z) | GFloat (f : float) | GBool (b : bool) | GString (s : bytes)
| GBytes (b : bytes) | GTime (t : Z) | GNil | GOther.

(** fastval.go:933-978 - [NewFastVal]. *)
Definition newFastVal (g : gval) : fval :=
  match g with
  | GInt z => VInt z
  | GUint n => VUint n
  | GFloat f => VFloat f
  | GBool b => if b then VTrue else VFalse
  | GString s => VString s
  | GBytes b => VBinary b
  | GTime t => VTime t
  | GNil => VNull
  | GOther => VInvalid
  end.

(** The seven binary comparison expressions (expression.go:195-257). *)
Inductive cmpk := CEq | CNe | CLt | CLe | CGt | CGe | CLike.

(** expression.go:20-257.  Variable ids are naturals; 0 is the document.
    [XLoop m] stands for AnyInExpr, EveryInExpr and AnyEveryInExpr. *)
Inductive expr :=
| XTrue | XFalse
| XValue (v : gval)
| XTime (s : bytes)
| XRegex (s : bytes)
| XPcre (s : bytes)
| XNot (e : expr)
| XAnd (l : list expr)
| XOr (l : list expr)
| XField (root : nat) (path : list bytes)
| XFunc (name : bytes) (params : list expr)
| XLoop (m : lmode) (var : nat) (inE sub : expr)
| XExists (e : expr)
| XNotExists (e : expr)
| XCmp (k : cmpk) (l r : expr).

Section ExprInd.
  Variable P : expr -> Prop.
  Hypothesis HT : P XTrue.
  Hypothesis HF : P XFalse.
  Hypothesis Hv : forall v, P (XValue v).
  Hypothesis Ht : forall s, P (XTime s).
  Hypothesis Hr : forall s, P (XRegex s).
  Hypothesis Hp : forall s, P (XPcre s).
  Hypothesis Hn : forall e, P e -> P (XNot e).
  Hypothesis Ha : forall l, Forall P l -> P (XAnd l).
  Hypothesis Ho : forall l, Forall P l -> P (XOr l).
  Hypothesis Hf : forall r p, P (XField r p).
  Hypothesis Hfn : forall n l, Forall P l -> P (XFunc n l).
  Hypothesis Hl : forall m v i s, P i -> P s -> P (XLoop m v i s).
  Hypothesis He : forall e, P e -> P (XExists e).
  Hypothesis Hne : forall e, P e -> P (XNotExists e).
  Hypothesis Hc : forall k l r, P l -> P r -> P (XCmp k l r).
  Fixpoint expr_ind' (e : expr) : P e :=
    let go := fix go (l : list expr) : Forall P l :=
      match l with [] => Forall_nil _ | x :: r => Forall_cons x (expr_ind' x) (go r) end in
    match e with
    | XTrue => HT | XFalse => HF | XValue v => Hv v | XTime s => Ht s | XRegex s => Hr s | XPcre s => Hp s
    | XNot a => Hn a (expr_ind' a)
    | XAnd l => Ha l (go l)
    | XOr l => Ho l (go l)
    | XField r p => Hf r p
    | XFunc n l => Hfn n l (go l)
    | XLoop m v i s => Hl m v i s (expr_ind' i) (expr_ind' s)
    | XExists a => He a (expr_ind' a)
    | XNotExists a => Hne a (expr_ind' a)
    | XCmp k l r => Hc k l r (expr_ind' l) (expr_ind' r)
    end.
End ExprInd.

(** A field expression as a pair (expression.go:110-113). *)
Definition fieldref := (nat * list bytes)%type.

Fixpoint path_eqb (a b : list bytes) : bool :=
  match a, b with
  | [], [] => true
  | x :: a', y :: b' => bytes_eqb x y && path_eqb a' b'
  | _, _ => false
  end.

(** expression_utils.go:5-18 - [fieldExprMatches]. *)
Definition fieldExprMatches (l r : fieldref) : bool :=
  Nat.eqb (fst l) (fst r) && path_eqb (snd l) (snd r).

(** expression_utils.go:20-107 - [fetchExprFieldRefsRecurse].  The slice of loop
    variables is a list with the innermost first. *)
Fixpoint fetchRec (e : expr) (loopVars : list nat) (fields : list fieldref) : outcome (list fieldref) :=
  let list_ := fix go (l : list expr) (fields : list fieldref) : outcome (list fieldref) :=
    match l with
    | [] => Ok fields
    | x :: r => do fs <- fetchRec x loopVars fields; go r fs
    end in
  match e with
  | XField root path =>
      if existsb (Nat.eqb root) loopVars then Ok fields
      else if existsb (fieldExprMatches (root, path)) fields then Ok fields
      else Ok (fields ++ [(root, path)])
  | XValue _ | XRegex _ | XPcre _ | XTime _ => Ok fields
  | XFunc _ l => list_ l fields
  | XNot a => fetchRec a loopVars fields
  | XAnd l => list_ l fields
  | XOr l => list_ l fields
  | XLoop _ v i s => do fs <- fetchRec i loopVars fields; fetchRec s (v :: loopVars) fs
  | XCmp _ l r => do fs <- fetchRec l loopVars fields; fetchRec r loopVars fs
  | XExists a => fetchRec a loopVars fields
  | XTrue | XFalse | XNotExists _ => Panic (* line 103 *)
  end.

Fixpoint fetchList (l : list expr) (loopVars : list nat) (fields : list fieldref) : outcome (list fieldref) :=
  match l with
  | [] => Ok fields
  | x :: r => do fs <- fetchRec x loopVars fields; fetchList r loopVars fs
  end.

Lemma fetchRec_list : forall (l : list expr) vs fs,
  (fix go (l : list expr) (fields : list fieldref) : outcome (list fieldref) :=
    match l with
    | [] => Ok fields
    | x :: r => do fs <- fetchRec x vs fields; go r fs
    end) l fs = fetchList l vs fs.
Proof. induction l as [|x r IH]; intros; cbn; [reflexivity|]. destruct (fetchRec x vs fs); cbn; auto. Qed.

(** expression_utils.go:109-111 - [fetchExprFieldRefs]. *)
Definition fetchExprFieldRefs (e : expr) : outcome (list fieldref) := fetchRec e [] [].
