(** Model of the String methods of compiled filters (fastMatcherDef.go, bintree.go,
    fastval.go): the text that a [MatchDef] shows of itself.

    Simplifications: the text that packages fmt and time give for floating-point numbers
    and times is a parameter; a map of elements is an association list, looked up by the
    sorted names as the code does; following references takes fuel. *)
From Coq Require Import String.
From Verif Require Import Base MTokenizer MLit MFastVal SEvents MBinTree MExpr MTransform.
From Coq Require Import List NArith ZArith Arith Lia Bool.
Import ListNotations.
Open Scope nat_scope.

(** utils.go:9-11 - [reindentString]. *)
Definition reindentBy (ind s : bytes) : bytes := ind ++ flat_map (fun c => if N.eqb c 10 then 10%N :: ind else [c]) s.
(** strings.TrimRight(s, "\n") *)
Fixpoint trimNL (s : bytes) : bytes :=
  match s with
  | [] => []
  | c :: r => match trimNL r with [] => if N.eqb c 10 then [] else [c] | t => c :: t end
  end.
(** sort.Strings *)
Fixpoint insertName (k : bytes) (l : list bytes) : list bytes :=
  match l with
  | [] => [k]
  | a :: r => if (cmpBytes k a <=? 0)%Z then k :: l else a :: insertName k r
  end.
Definition sortNames (l : list bytes) : list bytes := fold_right insertName [] l.

(** The formats of packages fmt (the verb f) and time. *)
Record dformats := { df_float : float -> bytes; df_time : Z -> bytes }.
Definition nl : bytes := [10%N].
Definition sp2 : bytes := s2b "  ".
Definition sp4 : bytes := s2b "    ".
Definition showNat (n : nat) : bytes := appendUint (Z.of_nat n).
Definition quoted (b : bytes) : bytes := [34%N] ++ b ++ [34%N].

(** The results of showing a list of things one after another. *)
Fixpoint catO {A} (f : A -> outcome bytes) (l : list A) : outcome bytes :=
  match l with
  | [] => Ok []
  | a :: r => do s <- f a; do t <- catO f r; Ok (s ++ t)
  end.

Section DefShow.
  Variable x : dformats.
  (** fastval.go:100-145 - [FastVal.String]; the case PcreValue is missing (144).
      [ToBinString] keeps the slice of binary and JSON strings (412-424). *)
  Definition showFV (v : fval) : outcome bytes :=
    match v with
    | VInvalid => Ok (s2b "invalid")
    | VMissing => Ok (s2b "missing")
    | VInt z => Ok (s2b "(int)" ++ appendInt z)
    | VUint n => Ok (s2b "(uint)" ++ appendUint n)
    | VFloat f => Ok (s2b "(float)" ++ df_float x f)
    | VJsonInt b => Ok (s2b "(jsonInt)" ++ b)
    | VJsonUint b => Ok (s2b "(jsonUint)" ++ b)
    | VJsonFloat b => Ok (s2b "(jsonFloat)" ++ b)
    | VString s => Ok (s2b "(string)" ++ s)
    | VBinString b => Ok (s2b "(binString)" ++ quoted b)
    | VJsonString b => Ok (s2b "(jsonString)" ++ quoted b)
    | VBinary b => Ok (s2b "(bin)" ++ quoted b)
    | VNull => Ok (s2b "null")
    | VTrue => Ok (s2b "true")
    | VFalse => Ok (s2b "false")
    | VArray b => Ok (s2b "(array)" ++ b)
    | VObject b => Ok (s2b "(object)" ++ b)
    | VTime t => Ok (df_time x t)
    | VRegex r => Ok (s2b "(regexp)" ++ r)
    | VPcre _ => Panic
    end.

  (** fastMatcherDef.go:32-62 - activeLitRef, SlotRef, FuncRef. *)
  Fixpoint showRef (d : dref) : outcome bytes :=
    match d with
    | DActive => Ok (s2b "@")
    | DSlot s => Ok (s2b "$" ++ showNat s)
    | DFunc name ps =>
        do t <- (fix go (first : bool) (l : list dref) : outcome bytes :=
                   match l with
                   | [] => Ok []
                   | p :: r => do s <- showRef p; do t <- go false r;
                               Ok ((if first then [] else s2b ", ") ++ s ++ t)
                   end) true ps;
        Ok (s2b "func:" ++ name ++ s2b "(" ++ t ++ s2b ")")
    | DVal v => showFV (fv v)
    end.
  (** fastMatcherDef.go:25-30 - [dataRefToString]. *)
  Definition showRefO (d : option dref) : outcome bytes := match d with None => Ok (s2b "@") | Some d => showRef d end.
  (** fastMatcherDef.go:77-98 *)
  Definition showOpType (o : optype) : bytes :=
    match o with
    | OpEquals => s2b "eq" | OpLessThan => s2b "lt" | OpLessEquals => s2b "le"
    | OpGreaterThan => s2b "gt" | OpGreaterEquals => s2b "gte"
    | OpExists => s2b "exists" | OpMatches => s2b "matches"
    end.
  (** fastMatcherDef.go:107-113 *)
  Definition showOp (o : opnode) : outcome bytes :=
    do l <- showRefO (op_lhs o); do r <- showRefO (op_rhs o);
    Ok (s2b "[" ++ showNat (op_bucket o) ++ s2b "] " ++ l ++ s2b " " ++ showOpType (op_op o) ++ s2b " " ++ r).
  (** fastMatcherDef.go:123-134 *)
  Definition showMode (m : lmode) : bytes := match m with LAny => s2b "any" | LEvery => s2b "every" | LAnyEvery => s2b "anyevery" end.

  (** fastMatcherDef.go:195-201, 229-235: operations under a heading. *)
  Definition showOps (head : bytes) (ops : list opnode) : outcome bytes :=
    match ops with
    | [] => Ok []
    | _ => do t <- catO (fun o => do s <- showOp o; Ok (reindentBy sp2 s ++ nl)) ops; Ok (head ++ nl ++ t)
    end.
  (** fastMatcherDef.go:143-148 - [LoopNode.String], given the text of its node. *)
  Definition showLoop (node : nat -> outcome bytes) (l : loopnode) : outcome bytes :=
    do t <- showRefO (lp_target l);
    do b <- node (lp_node l);
    Ok (s2b "[" ++ showNat (lp_bucket l) ++ s2b "] :" ++ showMode (lp_mode l) ++ s2b " in " ++ t ++ s2b ":" ++ nl ++ reindentBy sp2 b).
  (** fastMatcherDef.go:220-226, 237-243: loops under a heading. *)
  Definition showLoops (node : nat -> outcome bytes) (head : bytes) (ls : list loopnode) : outcome bytes :=
    match ls with
    | [] => Ok []
    | _ => do t <- catO (fun l => do s <- showLoop node l; Ok (reindentBy sp2 s ++ nl)) ls; Ok (head ++ nl ++ t)
    end.
  (** fastMatcherDef.go:203-218: the elements by name; a nil element would be dereferenced. *)
  Definition showElems (node : nat -> outcome bytes) (es : list (bytes * nat)) : outcome bytes :=
    match es with
    | [] => Ok []
    | _ =>
        do t <- catO (fun k =>
                  match lookup k es with
                  | None => Panic
                  | Some c => do s <- node c; Ok (s2b "  `" ++ k ++ s2b "`:" ++ nl ++ reindentBy sp4 s ++ nl)
                  end) (sortNames (map fst es));
        Ok (s2b ":elems" ++ nl ++ t)
    end.
  (** fastMatcherDef.go:189-247 - [ExecNode.String]. *)
  Fixpoint showExec (fuel : nat) (H : list execnode) (n : nat) : outcome bytes :=
    match fuel with
    | O => OutOfFuel
    | S fuel =>
        do nd <- idx H n;
        let node := showExec fuel H in
        let st := match x_store nd with O => [] | s => s2b ":store $" ++ showNat s ++ nl end in
        do a <- showOps (s2b ":ops") (x_ops nd);
        do b <- showElems node (x_elems nd);
        do c <- showLoops node (s2b ":loops") (x_loops nd);
        do d <- match x_after nd with
                | None => Ok []
                | Some af => do p <- showOps (s2b ":after-ops:") (af_ops af);
                             do q <- showLoops node (s2b ":after-loops:") (af_loops af); Ok (p ++ q)
                end;
        Ok (trimNL (st ++ a ++ b ++ c ++ d))
    end.

  (** bintree.go:22-38 *)
  Definition showType (t : ntype) : bytes :=
    match t with
    | NLeaf => s2b "leaf" | NOr => s2b "or" | NAnd => s2b "and" | NNot => s2b "not" | NNeor => s2b "neor" | NLoop => s2b "loop"
    end.
  (** bintree.go:82-93 - [itemToString]. *)
  Fixpoint showTree (fuel : nat) (T : list node) (i : nat) : outcome bytes :=
    match fuel with
    | O => OutOfFuel
    | S fuel =>
        do d <- idx T i;
        let h := s2b "[" ++ showNat i ++ s2b ":" ++ showNat (n_parent d) ++ s2b "] " ++ showType (n_type d) ++ nl in
        do a <- match n_left d with O => Ok [] | c => do s <- showTree fuel T c; Ok (reindentBy sp2 s ++ nl) end;
        do b <- match n_right d with O => Ok [] | c => do s <- showTree fuel T c; Ok (reindentBy sp2 s ++ nl) end;
        Ok (trimNL (h ++ a ++ b))
    end.

  (** fastMatcherDef.go:181-183 *)
  Fixpoint showBuckets (i : nat) (l : list Z) : bytes :=
    match l with
    | [] => []
    | z :: r => sp2 ++ showNat i ++ s2b ": " ++ appendInt z ++ nl ++ showBuckets (S i) r
    end.
  (** fastMatcherDef.go:171-187 - [MatchDef.String]; a nil ParseNode is dereferenced. The
      number of buckets is the number of tree nodes (transform.go:642-652). *)
  Definition showDef (fuel : nat) (D : matchdef) : outcome bytes :=
    match d_heap D with
    | None => Panic
    | Some H =>
        do p <- showExec fuel H 0;
        do t <- showTree fuel (d_tree D) 0;
        Ok (trimNL (s2b "match tree:" ++ nl ++ s2b "  $doc:" ++ nl ++ reindentBy sp4 p ++ nl
             ++ s2b "bin tree:" ++ nl ++ reindentBy sp2 t ++ nl
             ++ s2b "match buckets:" ++ nl ++ showBuckets 0 (d_buckets D)
             ++ s2b "num buckets: " ++ showNat (length (d_tree D)) ++ nl
             ++ s2b "num slots: " ++ showNat (d_slots D) ++ nl))
    end.
End DefShow.
