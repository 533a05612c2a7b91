(** Model of transform.go: compiling expressions to a [MatchDef].

    Simplifications: the [*ExecNode] graph is a heap (list) of nodes addressed by
    index, node 0 being [RootExec]; maps are association lists; the
    [*AfterNode] of a node is stored in the node; the transformer is fresh
    (a reused one only starts numbering its slots higher).  A returned error of
    [makeDataRef] is turned into a panic by every caller (transform.go:428-430,
    472-474, 498-505), so it is a [Panic] here. *)
From Verif Require Import Base MTokenizer MLit MFastVal SEvents MBinTree MExpr.
From Coq Require Import List NArith ZArith Arith Lia Bool.
Import ListNotations.

(** fastMatcherDef.go:21-62 - data references; [DVal] is a constant. *)
Inductive dref :=
| DActive
| DSlot (s : nat)
| DFunc (name : bytes) (ps : list dref)
| DVal (v : fastval).

(** fastMatcherDef.go:64-75 (OpTypeIn is never produced). *)
Inductive optype := OpEquals | OpLessThan | OpLessEquals | OpGreaterThan | OpGreaterEquals | OpExists | OpMatches.

(** fastMatcherDef.go:100-105, 136-141, 150-161. *)
Record opnode := OpN { op_bucket : nat; op_op : optype; op_lhs : option dref; op_rhs : option dref }.
Record loopnode := LoopN { lp_bucket : nat; lp_mode : lmode; lp_target : option dref; lp_node : nat }.
Record afternode := AfterN { af_ops : list opnode; af_loops : list loopnode }.
Record execnode := ExecN {
  x_store : nat;
  x_elems : list (bytes * nat);
  x_ops : list opnode;
  x_loops : list loopnode;
  x_after : option afternode
}.
Definition emptyExec : execnode := ExecN 0 [] [] [] None.

(** transform.go:50-68 - the transformer; the context stack has its top first. *)
Record tr := Tr {
  t_heap : list execnode;
  t_tree : list node;
  t_bucket : nat;
  t_active : nat;
  t_slot : nat;
  t_ctx : list (nat * nat)
}.
Definition setHeap (t : tr) (h : list execnode) : tr :=
  Tr h (t_tree t) (t_bucket t) (t_active t) (t_slot t) (t_ctx t).
Definition setActive (t : tr) (a : nat) : tr :=
  Tr (t_heap t) (t_tree t) (t_bucket t) a (t_slot t) (t_ctx t).
Definition setCtx (t : tr) (c : list (nat * nat)) : tr :=
  Tr (t_heap t) (t_tree t) (t_bucket t) (t_active t) (t_slot t) c.
Definition setTree (t : tr) (T : list node) : tr :=
  Tr (t_heap t) T (t_bucket t) (t_active t) (t_slot t) (t_ctx t).

Fixpoint lookup (k : bytes) (l : list (bytes * nat)) : option nat :=
  match l with
  | [] => None
  | (x, v) :: r => if bytes_eqb k x then Some v else lookup k r
  end.

Definition setElems (x : execnode) (e : list (bytes * nat)) := ExecN (x_store x) e (x_ops x) (x_loops x) (x_after x).
Definition setStore (x : execnode) (s : nat) := ExecN s (x_elems x) (x_ops x) (x_loops x) (x_after x).
Definition setOps (x : execnode) (o : list opnode) := ExecN (x_store x) (x_elems x) o (x_loops x) (x_after x).
Definition setLoops (x : execnode) (l : list loopnode) := ExecN (x_store x) (x_elems x) (x_ops x) l (x_after x).
Definition setAfter (x : execnode) (a : option afternode) := ExecN (x_store x) (x_elems x) (x_ops x) (x_loops x) a.

(** transform.go:76-88 - walk down, creating missing nodes. *)
Fixpoint walk (h : list execnode) (n : nat) (path : list bytes) : outcome (list execnode * nat) :=
  match path with
  | [] => Ok (h, n)
  | entry :: rest =>
      do x <- idx h n;
      match lookup entry (x_elems x) with
      | Some c => walk h c rest
      | None =>
          let c := length h in
          walk (upd h n (setElems x (x_elems x ++ [(entry, c)])) ++ [emptyExec]) c rest
      end
  end.

(** transform.go:12-15 - a resolved reference: the node of its context, and the path.
    A context is represented by its node; [RNone] is the nil context (document). *)
Definition rref := (option nat * list bytes)%type.

(** transform.go:70-89 - [getExecNode]. *)
Definition getExecNode (t : tr) (r : rref) : outcome (tr * nat) :=
  let n := match fst r with Some c => c | None => O end in
  do (h, n') <- walk (t_heap t) n (snd r);
  Ok (setHeap t h, n').

(** transform.go:120-124, 91-96 - [newSlot], [storeExecNode]. *)
Definition storeExecNode (t : tr) (n : nat) : outcome (tr * nat) :=
  do x <- idx (t_heap t) n;
  if Nat.eqb (x_store x) 0 then
    let s := S (t_slot t) in
    Ok (Tr (upd (t_heap t) n (setStore x s)) (t_tree t) (t_bucket t) (t_active t) s (t_ctx t), s)
  else Ok (t, x_store x).

(** transform.go:98-104 - [getAfterNode]. *)
Definition getAfterNode (t : tr) (n : nat) : outcome tr :=
  do x <- idx (t_heap t) n;
  match x_after x with
  | Some _ => Ok t
  | None => Ok (setHeap t (upd (t_heap t) n (setAfter x (Some (AfterN [] [])))))
  end.

(** transform.go:106-118 - [newBucket]. *)
Definition newBucket (t : tr) : tr :=
  Tr (t_heap t) (t_tree t ++ [Node NLeaf (t_active t) 0 0]) (S (t_bucket t)) (t_bucket t) (t_slot t) (t_ctx t).

(** transform.go:126-132, 134-141 - [pushContext], [popContext]. *)
Definition pushContext (t : tr) (v n : nat) : tr := setCtx t ((v, n) :: t_ctx t).
Definition popContext (t : tr) (n : nat) : outcome tr :=
  match t_ctx t with
  | [] => Panic
  | (_, m) :: r => if Nat.eqb m n then Ok (setCtx t r) else Panic
  end.

(** transform.go:153-165 - [getContext]; because of [i++] only the top of the
    stack is ever inspected before the index runs off the end. *)
Definition getContext (t : tr) (v : nat) : outcome (option nat) :=
  if Nat.eqb v 0 then Ok None
  else match t_ctx t with
       | (w, n) :: _ => if Nat.eqb w v then Ok (Some n) else Panic
       | [] => Panic
       end.

(** transform.go:167-172 - [resolveRef]. *)
Definition resolveRef (t : tr) (f : fieldref) : outcome rref :=
  do c <- getContext t (fst f); Ok (c, snd f).

(** transform.go:143-151 - [gatherResolvedFieldRefs]. *)
Fixpoint resolveRefs (t : tr) (l : list fieldref) : outcome (list rref) :=
  match l with
  | [] => Ok []
  | f :: r => do x <- resolveRef t f; do xs <- resolveRefs t r; Ok (x :: xs)
  end.

Definition optnat_eqb (a b : option nat) : bool :=
  match a, b with
  | None, None => true
  | Some x, Some y => Nat.eqb x y
  | _, _ => false
  end.

Definition currentContext (t : tr) : option nat :=
  match t_ctx t with [] => None | (_, n) :: _ => Some n end.

(** transform.go:194-200 - the longest path (the first among equals). *)
Fixpoint longest (best : list bytes) (l : list (list bytes)) : list bytes :=
  match l with
  | [] => best
  | p :: r => longest (if Nat.ltb (length best) (length p) then p else best) r
  end.

(** transform.go:206-211 - do all paths agree with the base at position [j]?  The
    test [len(deepField.Path) < j] lets [j = len] through to an index panic. *)
Fixpoint agreeAt (j : nat) (b : bytes) (paths : list (list bytes)) : outcome bool :=
  match paths with
  | [] => Ok true
  | p :: r =>
      if Nat.ltb (length p) j then Ok false
      else do c <- idx p j;
           if bytes_eqb c b then agreeAt j b r else Ok false
  end.

(** transform.go:204-213 - PathLoop. *)
Fixpoint commonPath (j : nat) (base : list bytes) (paths : list (list bytes)) : outcome (list bytes) :=
  match base with
  | [] => Ok []
  | b :: rest =>
      do ok <- agreeAt j b paths;
      if ok then do c <- commonPath (S j) rest paths; Ok (b :: c) else Ok []
  end.

(** transform.go:174-221 - [findFieldRefsBestRoot]. *)
Definition findBestRoot (t : tr) (refs : list rref) : outcome (rref * bool) :=
  let cur := currentContext t in
  let paths := map snd (filter (fun r => optnat_eqb (fst r) cur) refs) in
  match paths with
  | [] => Ok ((cur, []), false)
  | p :: r =>
      let base := longest p r in
      do c <- commonPath 0 base paths;
      Ok ((cur, c), Nat.ltb (length c) (length base))
  end.

(** transform.go:223-226 - [nodeRef]: the node itself, or its after-node. *)
Inductive nref := RNode (n : nat) | RAfter (n : nat).

(** transform.go:263-280 - [pickBaseNode], on the fields of the expression. *)
Definition pickBaseNode (t : tr) (e : expr) : outcome (tr * nref) :=
  do fs <- fetchExprFieldRefs e;
  do refs <- resolveRefs t fs;
  do (best, needsAfter) <- findBestRoot t refs;
  do (t1, n) <- getExecNode t best;
  if needsAfter : bool then do t2 <- getAfterNode t1 n; Ok (t2, RAfter n)
  else Ok (t1, RNode n).

(** transform.go:228-236 - [AddOp]. *)
Definition addOp (t : tr) (r : nref) (o : opnode) : outcome tr :=
  match r with
  | RNode n => do x <- idx (t_heap t) n; Ok (setHeap t (upd (t_heap t) n (setOps x (x_ops x ++ [o]))))
  | RAfter n =>
      do x <- idx (t_heap t) n;
      match x_after x with
      | None => Panic
      | Some a => Ok (setHeap t (upd (t_heap t) n (setAfter x (Some (AfterN (af_ops a ++ [o]) (af_loops a))))))
      end
  end.

(** transform.go:238-261 - [AddLoop]. *)
Definition addLoop (t : tr) (r : nref) (l : loopnode) : outcome tr :=
  match r with
  | RNode n =>
      match lp_target l with
      | Some _ => Panic
      | None => do x <- idx (t_heap t) n; Ok (setHeap t (upd (t_heap t) n (setLoops x (x_loops x ++ [l]))))
      end
  | RAfter n =>
      match lp_target l with
      | Some (DSlot _) =>
          do x <- idx (t_heap t) n;
          match x_after x with
          | None => Panic
          | Some a => Ok (setHeap t (upd (t_heap t) n (setAfter x (Some (AfterN (af_ops a) (af_loops a ++ [l]))))))
          end
      | _ => Panic
      end
  end.

Definition isBase (r : nref) (n : nat) : bool := match r with RNode m => Nat.eqb m n | RAfter _ => false end.

(** The constants: transform.go:297-316, 332-335. *)
Definition constRef (o : oracles) (e : expr) : outcome fastval :=
  match e with
  | XValue g =>
      let v := newFastVal g in
      Ok (FV (if isString v then fst (toJsonString o v) else v) true)
  | XRegex s => if o_regexCompiles o s then Ok (FV (VRegex s) true) else Panic
  | XPcre s => if o_pcreCompiles o s then Ok (FV (VPcre s) true) else Panic
  | XTime s => match getNewTime o s with Some z => Ok (FV (VTime z) true) | None => Panic end
  | _ => Panic
  end.

(** transform.go:282-339 - [makeDataRefRecurse] with [isRoot = false]. *)
Fixpoint dataRefIn (o : oracles) (e : expr) (ctx : nref) (t : tr) : outcome (tr * dref) :=
  match e with
  | XField root path =>
      do r <- resolveRef t (root, path);
      do (t1, n) <- getExecNode t r;
      if isBase ctx n then Ok (t1, DActive)
      else do (t2, s) <- storeExecNode t1 n; Ok (t2, DSlot s)
  | XFunc name l =>
      do (t1, ps) <- (fix go (l : list expr) (t : tr) : outcome (tr * list dref) :=
                        match l with
                        | [] => Ok (t, [])
                        | x :: r => do (t1, p) <- dataRefIn o x ctx t;
                                    do (t2, ps) <- go r t1; Ok (t2, p :: ps)
                        end) l t;
      Ok (t1, DFunc name ps)
  | _ => do v <- constRef o e; Ok (t, DVal v)
  end.

Fixpoint dataRefList (o : oracles) (l : list expr) (ctx : nref) (t : tr) : outcome (tr * list dref) :=
  match l with
  | [] => Ok (t, [])
  | x :: r => do (t1, p) <- dataRefIn o x ctx t; do (t2, ps) <- dataRefList o r ctx t1; Ok (t2, p :: ps)
  end.

(** transform.go:341-343 - [makeDataRef]: a field that is the base node itself is
    the nil reference. *)
Definition makeDataRef (o : oracles) (e : expr) (ctx : nref) (t : tr) : outcome (tr * option dref) :=
  match e with
  | XField root path =>
      do r <- resolveRef t (root, path);
      do (t1, n) <- getExecNode t r;
      if isBase ctx n then Ok (t1, None)
      else do (t2, s) <- storeExecNode t1 n; Ok (t2, Some (DSlot s))
  | _ => do (t1, d) <- dataRefIn o e ctx t; Ok (t1, Some d)
  end.

(** Set the type / the left child / the right child of a tree node. *)
Definition setType (T : list node) (i : nat) (ty : ntype) : outcome (list node) :=
  do n <- idx T i; Ok (upd T i (Node ty (n_parent n) (n_left n) (n_right n))).
Definition setLeft (T : list node) (i c : nat) : outcome (list node) :=
  do n <- idx T i; Ok (upd T i (Node (n_type n) (n_parent n) c (n_right n))).
Definition setRight (T : list node) (i c : nat) : outcome (list node) :=
  do n <- idx T i; Ok (upd T i (Node (n_type n) (n_parent n) (n_left n) c)).

(** The recurring opening [NodeType = ty; newBucket(); Left = ActiveBucketIdx]. *)
Definition openLeft (ty : ntype) (t : tr) : outcome tr :=
  let base := t_active t in
  do T <- setType (t_tree t) base ty;
  let t1 := newBucket (setTree t T) in
  do T1 <- setLeft (t_tree t1) base (t_active t1);
  Ok (setTree t1 T1).
(** [ActiveBucketIdx = base; newBucket(); Right = ActiveBucketIdx]. *)
Definition openRight (base : nat) (t : tr) : outcome tr :=
  let t1 := newBucket (setActive t base) in
  do T1 <- setRight (t_tree t1) base (t_active t1);
  Ok (setTree t1 T1).

(** transform.go:371-380. *)
Definition transformNot (k : tr -> outcome tr) (t : tr) : outcome tr :=
  do t1 <- openLeft NNot t; k t1.

(** transform.go:382-420 - one step of [transformOr] / [transformAnd]. *)
Definition transformBin (ty : ntype) (k1 k2 : tr -> outcome tr) (t : tr) : outcome tr :=
  let base := t_active t in
  do t1 <- openLeft ty t;
  do t2 <- k1 t1;
  do t3 <- openRight base t2;
  k2 t3.

(** transform.go:468-484. *)
Definition transformExists (o : oracles) (sub : expr) (t : tr) : outcome tr :=
  do (t1, b) <- pickBaseNode t (XExists sub);
  do (t2, d) <- makeDataRef o sub b t1;
  addOp t2 b (OpN (t_active t2) OpExists d None).

(** transform.go:494-515. *)
Definition transformComparison (o : oracles) (e : expr) (op : optype) (l r : expr) (t : tr) : outcome tr :=
  do (t1, b) <- pickBaseNode t e;
  do (t2, dl) <- makeDataRef o l b t1;
  do (t3, dr) <- makeDataRef o r b t2;
  addOp t3 b (OpN (t_active t3) op dl dr).

(** transform.go:422-454. *)
Definition transformLoop (o : oracles) (m : lmode) (v : nat) (inE sub : expr)
  (k : tr -> outcome tr) (t : tr) : outcome tr :=
  do (t1, b) <- pickBaseNode t (XLoop m v inE sub);
  do (t2, target) <- makeDataRef o inE b t1;
  do t3 <- openLeft NLoop t2;
  let newNode := length (t_heap t3) in
  let t4 := setHeap t3 (t_heap t3 ++ [emptyExec]) in
  do t5 <- addLoop t4 b (LoopN (t_active t4) m target newNode);
  do t6 <- k (pushContext t5 v newNode);
  popContext t6 newNode.

(** transform.go:545-581 - [transformOne].  NotExists and NotEquals are rewritten to
    Not (Exists), Not (Equals) (486-492, 521-523); other expression kinds, in
    particular True and False, are silently ignored (580). *)
Fixpoint transformOne (o : oracles) (e : expr) (t : tr) : outcome tr :=
  match e with
  | XLoop m v inE sub => transformLoop o m v inE sub (transformOne o sub) t
  | XNot a => transformNot (transformOne o a) t
  | XOr l =>
      (fix go (l : list expr) (t : tr) : outcome tr :=
         match l with
         | [] => Panic
         | [a] => transformOne o a t
         | a :: r => transformBin NOr (transformOne o a) (go r) t
         end) l t
  | XAnd l =>
      (fix go (l : list expr) (t : tr) : outcome tr :=
         match l with
         | [] => Panic
         | [a] => transformOne o a t
         | a :: r => transformBin NAnd (transformOne o a) (go r) t
         end) l t
  | XExists a => transformExists o a t
  | XNotExists a => transformNot (transformExists o a) t
  | XCmp CEq l r => transformComparison o e OpEquals l r t
  | XCmp CNe l r => transformNot (transformComparison o (XCmp CEq l r) OpEquals l r) t
  | XCmp CLt l r => transformComparison o e OpLessThan l r t
  | XCmp CLe l r => transformComparison o e OpLessEquals l r t
  | XCmp CGt l r => transformComparison o e OpGreaterThan l r t
  | XCmp CGe l r => transformComparison o e OpGreaterEquals l r t
  | XCmp CLike l r => transformComparison o e OpMatches l r t
  | _ => Ok t
  end.

Fixpoint transformChain (o : oracles) (ty : ntype) (l : list expr) (t : tr) : outcome tr :=
  match l with
  | [] => Panic
  | [a] => transformOne o a t
  | a :: r => transformBin ty (transformOne o a) (transformChain o ty r) t
  end.

Lemma transformOne_or : forall o l t, transformOne o (XOr l) t = transformChain o NOr l t.
Proof.
  intros o l. cbn [transformOne]. induction l as [|a [|b r] IH]; intro t; try reflexivity.
  cbn [transformChain]. unfold transformBin.
  destruct (openLeft NOr t) as [t1| | |]; cbn; try reflexivity.
  destruct (transformOne o a t1) as [t2| | |]; cbn; try reflexivity.
  destruct (openRight (t_active t) t2) as [t3| | |]; cbn; try reflexivity.
  apply IH.
Qed.
Lemma transformOne_and : forall o l t, transformOne o (XAnd l) t = transformChain o NAnd l t.
Proof.
  intros o l. cbn [transformOne]. induction l as [|a [|b r] IH]; intro t; try reflexivity.
  cbn [transformChain]. unfold transformBin.
  destruct (openLeft NAnd t) as [t1| | |]; cbn; try reflexivity.
  destruct (transformOne o a t1) as [t2| | |]; cbn; try reflexivity.
  destruct (openRight (t_active t) t2) as [t3| | |]; cbn; try reflexivity.
  apply IH.
Qed.

(** transform.go:345-365 - [transformMergePiece], returning the bucket ids. *)
Fixpoint transformMerge (o : oracles) (l : list expr) (t : tr) : outcome (tr * list nat) :=
  match l with
  | [] => Panic
  | [a] => do t1 <- transformOne o a t; Ok (t1, [t_active t])
  | a :: r =>
      let base := t_active t in
      do t1 <- openLeft NNeor t;
      do t2 <- transformOne o a t1;
      do t3 <- openRight base t2;
      do (t4, ids) <- transformMerge o r t3;
      Ok (t4, t_active t1 :: ids)
  end.

(** fastMatcherDef.go:163-169 - [MatchDef]; [d_heap = None] is a nil ParseNode. *)
Record matchdef := MatchDef {
  d_heap : option (list execnode);
  d_tree : list node;
  d_buckets : list Z;
  d_slots : nat
}.

(** transform.go:583-584, 602-615 - constants are pre-resolved; the others are
    numbered in order. *)
Definition isConst (e : expr) : option Z :=
  match e with XTrue => Some (-1)%Z | XFalse => Some (-2)%Z | _ => None end.
Definition genExprs (es : list expr) : list expr :=
  filter (fun e => match isConst e with Some _ => false | None => true end) es.
(** transform.go:624-628. *)
Fixpoint exprBuckets (es : list expr) (ids : list nat) : list Z :=
  match es with
  | [] => []
  | e :: r =>
      match isConst e with
      | Some c => c :: exprBuckets r ids
      | None => match ids with
                | i :: ids' => Z.of_nat i :: exprBuckets r ids'
                | [] => 0%Z :: exprBuckets r []
                end
      end
  end.

Definition tr0 : tr := Tr [emptyExec] [Node NLeaf 0 0 0] 1 0 0 [].

(** transform.go:586-654 - [Transform]. *)
Definition transform (o : oracles) (es : list expr) : outcome matchdef :=
  match genExprs es with
  | [] => Ok (MatchDef None [] (exprBuckets es []) 0)
  | gs =>
      do (t, ids) <- transformMerge o gs tr0;
      match validate (t_tree t) with
      | Ok _ =>
          if Nat.eqb (length (t_tree t)) (t_bucket t)
          then Ok (MatchDef (Some (t_heap t)) (t_tree t) (exprBuckets es ids) (t_slot t))
          else Panic
      | Err | Panic => Panic
      | OutOfFuel => OutOfFuel
      end
  end.
