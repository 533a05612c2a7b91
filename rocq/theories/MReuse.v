(** One [Transformer] used for several [Transform] calls, and one matcher used for several documents. *)
From Verif Require Import Base MTokenizer MLit MFastVal SEvents MBinTree MExpr MTransform MMatcher.
From Coq Require Import List NArith ZArith Arith Lia Bool.
Import ListNotations.
Open Scope nat_scope.

(** transform.go:586-654 - [Transform] on a transformer whose [SlotIdx] is [k]: everything else is set
    anew (587-595), and [SlotIdx] is cleared when there is nothing to compile (629-634). *)
Definition transformFrom (k : nat) (o : oracles) (es : list expr) : outcome matchdef :=
  match genExprs es with
  | [] => Ok (MatchDef None [] (exprBuckets es []) 0)
  | gs =>
      do (t, ids) <- transformMerge o gs (Tr [emptyExec] [Node NLeaf 0 0 0] 1 0 k []);
      match validate (t_tree t) with
      | Ok _ =>
          if Nat.eqb (length (t_tree t)) (t_bucket t)
          then Ok (MatchDef (Some (t_heap t)) (t_tree t) (exprBuckets es ids) (t_slot t))
          else Panic
      | Err | Panic => Panic
      | OutOfFuel => OutOfFuel
      end
  end.
(** Several calls; [NumSlots] of a definition is the transformer's [SlotIdx] (652). *)
Fixpoint transformAll (k : nat) (o : oracles) (calls : list (list expr)) : outcome (list matchdef) :=
  match calls with
  | [] => Ok []
  | es :: r => do D <- transformFrom k o es; do Ds <- transformAll (d_slots D) o r; Ok (D :: Ds)
  end.

(** What a caller can do with a matcher (fastMatcher.go:24-37, 811-848), and see. *)
Inductive call := CallMatch (doc : bytes) | CallReset | CallAsk (i : nat).
Inductive seen := SawMatch (r : option bool) (collated : bool) | SawReset | SawExpr (b : bool).
Definition doCall (fuel : nat) (o : oracles) (D : matchdef) (c : call) (s : mst) : outcome (mst * seen) :=
  match c with
  | CallMatch doc => do (sa, r) <- match_ fuel o D doc s; Ok (sa, SawMatch r (ms_coll sa))
  | CallReset => Ok (resetMatcher s, SawReset)
  | CallAsk i => do b <- expressionMatched D s i; Ok (s, SawExpr b)
  end.
Fixpoint useMatcher (fuel : nat) (o : oracles) (D : matchdef) (cs : list call) (s : mst) : outcome (list seen) :=
  match cs with
  | [] => Ok []
  | c :: r => do (sa, x) <- doCall fuel o D c s; do xs <- useMatcher fuel o D r sa; Ok (x :: xs)
  end.
