(** Specification: the truth value of a filter on a document. *)
From Coq Require Import String.
From Verif Require Import Base MTokenizer SJson MLit MFastVal MMath SFormula SEvents MExpr MTransform MMatcher MTree SDoc SFilter.
From Coq Require Import List NArith ZArith Arith Lia Bool.
Import ListNotations.
Open Scope nat_scope.

(** ** Functions an operand may use: those that return for every argument. *)
Definition unaryFuns : list bytes := map s2b
  ["mathAbs"; "mathAcos"; "mathAsin"; "mathAtan"; "mathRound"; "mathCos"; "mathSin"; "mathTan"; "mathSqrt";
   "mathExp"; "mathLn"; "mathLog"; "mathCeil"; "mathFloor"; "mathDegrees"; "mathRadians"; "date"; "mathNegate"]%string.
Definition binaryFuns : list bytes := map s2b
  ["mathAtan2"; "mathPow"; "mathAdd"; "mathSubract"; "mathMultiply"]%string.
Fixpoint funsOk (e : expr) : Prop :=
  match e with
  | XFunc n l =>
      ((In n unaryFuns /\ 1 <= length l) \/ (In n binaryFuns /\ 2 <= length l))
      /\ (fix go l := match l with [] => True | x :: r => funsOk x /\ go r end) l
  | _ => True
  end.

(** ** Truth *)
Section Sat.
  Variable o : oracles.
  Variable doc : cst.

  (** The field [q] of the document, or of the current array element. *)
  Definition fieldAt (cur : cst) (r : nat) (q : list bytes) : option cst :=
    at_ q (if Nat.eqb r 0 then doc else cur).

  (** The value of an operand. *)
  Fixpoint oval (cur : cst) (e : expr) : outcome fastval :=
    match e with
    | XField r q => match fieldAt cur r q with Some w => valOf o w | None => Ok (plain VMissing) end
    | XFunc n l =>
        match funLookup n funTable, l with
        | Some (Fn1 f), a :: _ => do x <- oval cur a; f o x
        | Some (Fn2 f), a :: b :: _ => do x <- oval cur a; do y <- oval cur b; f o x y
        | _, _ => Panic
        end
    | _ => constRef o e
    end.

  Definition cmpHolds (k : cmpk) (x y : fastval) : bool :=
    match k with
    | CEq => fst (equals o x y)
    | CNe => negb (fst (equals o x y))
    | CLt => Z.ltb (fst (compare o x y)) 0
    | CLe => Z.leb (fst (compare o x y)) 0
    | CGt => Z.ltb 0 (fst (compare o x y))
    | CGe => Z.leb 0 (fst (compare o x y))
    | CLike => fst (matches o x y)
    end.

  Definition absentField (cur : cst) (e : expr) : bool :=
    match e with XField r q => match fieldAt cur r q with None => true | _ => false end | _ => false end.

  (** A comparison or existence test below a loop over variable [cv] (0: none), on
      the element [cur]: not known if a field of the element is absent, even one
      inside a function; false if a field of the document is absent; else the
      comparison of the values. *)
  Definition atom3 (cv : nat) (cur : cst) (e : expr) : option bool :=
    if existsb (fun q => match at_ q cur with None => true | _ => false end) (pathsOf cv e) then None
    else match e with
         | XExists a => if absentField cur a then Some false else Some true
         | XCmp k l r =>
             if absentField cur l || absentField cur r then Some false
             else match oval cur l, oval cur r with
                  | Ok x, Ok y => Some (cmpHolds k x y)
                  | _, _ => None
                  end
         | _ => None
         end.

  (** Inside loops: three values, Kleene connectives; an element satisfies the
      body only if the body is known to be true. *)
  Fixpoint sat3 (cv : nat) (cur : cst) (e : expr) : option bool :=
    match e with
    | XTrue => Some true
    | XFalse => Some false
    | XNot a => k_not (sat3 cv cur a)
    | XAnd l => (fix go l := match l with [] => Some true | x :: r => k_bin BAnd (sat3 cv cur x) (go r) end) l
    | XOr l => (fix go l := match l with [] => Some false | x :: r => k_bin BOr (sat3 cv cur x) (go r) end) l
    | XExists _ => atom3 cv cur e
    | XNotExists a => k_not (atom3 cv cur (XExists a))
    | XCmp CNe l r => k_not (atom3 cv cur (XCmp CEq l r))
    | XCmp _ _ _ => atom3 cv cur e
    | XLoop m v (XField r q) s =>
        match fieldAt cur r q with
        | Some (CArr es _) => Some (quant m (map (fun e => known_true (sat3 v (e_v e) s)) es))
        | _ => None
        end
    | _ => None
    end.

  (** Outside loops: two values; comparisons on absent fields and loops over what is
      not an array are false, before any negation. *)
  Fixpoint sat (e : expr) : bool :=
    match e with
    | XTrue => true
    | XFalse => false
    | XNot a => negb (sat a)
    | XAnd l => forallb sat l
    | XOr l => existsb sat l
    | XNotExists a => negb (known_true (atom3 0 doc (XExists a)))
    | XCmp CNe l r => negb (known_true (atom3 0 doc (XCmp CEq l r)))
    | _ => known_true (sat3 0 doc e)
    end.

  (** ** Documents on which the matcher gets it right *)
  Definition emptyC (v : cst) : bool :=
    match v with CArr [] _ => true | CObj [] _ => true | _ => false end.
  (** [q] does not lead to an empty container. *)
  Definition filled (cur : cst) (q : list bytes) : Prop := forall w, at_ q cur = Some w -> emptyC w = false.

  (** The fields used inside functions. *)
  Definition argPaths (e : expr) : list (list bytes) :=
    match e with XFunc _ _ => map snd (frefs e) | _ => [] end.
  Definition opArgs (e : expr) : list (list bytes) :=
    match e with
    | XExists a => argPaths a
    | XCmp _ l r => argPaths l ++ argPaths r
    | _ => []
    end.

  Definition atomTame (cv : nat) (cur : cst) (e : expr) : Prop :=
    (forall q, In q (pathsOf cv e) -> filled cur q)
    /\ (pathsOf cv e = [] -> emptyC cur = false)
    /\ (two (pathsOf cv e) -> forall q, In q (if Nat.eqb cv 0 then opArgs e else pathsOf cv e) -> at_ q cur <> None).

  Fixpoint tame (cv : nat) (cur : cst) (e : expr) : Prop :=
    match e with
    | XNot a => tame cv cur a
    | XAnd l | XOr l => (fix go l := match l with [] => True | x :: r => tame cv cur x /\ go r end) l
    | XExists _ | XCmp _ _ _ => atomTame cv cur e
    | XNotExists a => atomTame cv cur (XExists a)
    | XLoop m v (XField r q) s =>
        (cv = 0 -> (forall q', In q' (pathsOf 0 s) -> filled doc q') /\ (two (loopPaths 0 q s) -> filled doc q))
        /\ (forall es w e, at_ q cur = Some (CArr es w) -> In e es -> tame v (e_v e) s)
    | _ => True
    end.

  (** A body that is false when nothing is known about its atoms. *)
  Fixpoint vac (e : expr) : bool :=
    match e with
    | XNot a => negb (vac a)
    | XAnd l => forallb vac l
    | XOr l => existsb vac l
    | XNotExists _ | XCmp CNe _ _ => true
    | XLoop _ _ _ s => vac s
    | _ => false
    end.
  (** Loops outside loops: over an array, or with such a body. *)
  Fixpoint looped (e : expr) : Prop :=
    match e with
    | XNot a => looped a
    | XAnd l | XOr l => (fix go l := match l with [] => True | x :: r => looped x /\ go r end) l
    | XLoop m v (XField r q) s => (exists es w, at_ q doc = Some (CArr es w)) \/ vac s = false
    | _ => True
    end.
End Sat.

(** ** Filters on which the matcher gets it right, besides those it refuses: no
    function that can fail; a loop body does not refer back to the looped field; no
    path goes through an index of a looped array ([P]: all paths below the
    variable of the loop); no nested TRUE. *)
Fixpoint regular (P : list (list bytes)) (cv : nat) (e : expr) : Prop :=
  match e with
  | XTrue => False
  | XNot a => regular P cv a
  | XAnd l | XOr l => (fix go l := match l with [] => True | x :: r => regular P cv x /\ go r end) l
  | XExists a | XNotExists a => funsOk a
  | XCmp _ l r => funsOk l /\ funsOk r
  | XLoop _ v (XField _ q) s =>
      (forall j r, ~ In (q ++ indexKey j :: r) P) /\ (cv = 0 -> ~ In q (pathsOf 0 s)) /\ regular (pathsOf v s) v s
  | _ => True
  end.
