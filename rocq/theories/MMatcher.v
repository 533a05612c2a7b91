(** Model of fastMatcher.go: running a compiled [MatchDef] over the bytes of a
    document.

    A Go function that can return an error keeps the side effects it had, so
    these functions return the new state together with a flag saying whether an
    error was returned.  [Panic] is a Go panic; recursion takes fuel.
    Simplifications: slicing [data[a:b]] panics here whenever [b > len(data)]
    (Go: cap); the definition passed to NewFastMatcher is well typed (no operand
    of a foreign type, no invalid op or loop mode). *)
From Coq Require Import String.
From Verif Require Import Base MTokenizer MLit MFastVal MMath SEvents MBinTree MSession MExpr MTransform.
From Coq Require Import List NArith ZArith Arith Lia Bool.
Import ListNotations.

(** fastMatcher.go:16-22 - the mutable part of a matcher: slots, predicate tree
    (data, stall index), tokenizer position, the status flag. *)
Record mst := MSt {
  ms_slots : list (nat * nat);
  ms_data : sdata;
  ms_stall : nat;
  ms_pos : nat;
  ms_coll : bool
}.
(** The fixed part: definition, tree, document. *)
Record menv := MEnv {
  me_o : oracles;
  me_heap : list execnode;
  me_tree : list node;
  me_doc : bytes
}.
Definition setPos (s : mst) (p : nat) := MSt (ms_slots s) (ms_data s) (ms_stall s) p (ms_coll s).
Definition setData (s : mst) (d : sdata) := MSt (ms_slots s) d (ms_stall s) (ms_pos s) (ms_coll s).
Definition setStall (s : mst) (k : nat) := MSt (ms_slots s) (ms_data s) k (ms_pos s) (ms_coll s).
Definition setSlots (s : mst) (l : list (nat * nat)) := MSt l (ms_data s) (ms_stall s) (ms_pos s) (ms_coll s).
Definition setColl (s : mst) := MSt (ms_slots s) (ms_data s) (ms_stall s) (ms_pos s) true.

(** jsontokenizer.go:28-30. *)
Definition isLiteralToken (t : tok) : bool :=
  match t with TString | TEscString | TInteger | TNumber | TNull | TTrue | TFalse => true | _ => false end.

(** fastMatcher.go:39-68 - [leaveValue]: new position, and whether an error was
    returned.  A failing [Step] does not move the tokenizer. *)
Fixpoint leaveValue (fuel : nat) (doc : bytes) (depth pos : nat) : outcome (nat * bool) :=
  match fuel with
  | O => OutOfFuel
  | S f =>
      match step doc pos with
      | SErr => Ok (pos, true)
      | SOk t _ b =>
          match t with
          | TObjectStart | TArrayStart => leaveValue f doc (S depth) b
          | TObjectEnd | TArrayEnd =>
              match depth with
              | O => Ok (b, false)
              | S d => leaveValue f doc d b
              end
          | TEnd => Panic
          | _ => leaveValue f doc depth b
          end
      end
  end.
Definition leave (E : menv) (s : mst) : outcome (mst * bool) :=
  do (p, e) <- leaveValue (S (length (me_doc E))) (me_doc E) 0 (ms_pos s);
  Ok (setPos s p, e).

(** fastMatcher.go:70-92 - [skipValue]. *)
Definition skipValue (E : menv) (t : tok) (s : mst) : outcome (mst * bool) :=
  if isLiteralToken t then Ok (s, false)
  else match t with
       | TObjectStart | TArrayStart => leave E s
       | _ => Panic
       end.

(** [data[a:b]]. *)
Definition goSlice (d : bytes) (a b : nat) : outcome bytes :=
  if Nat.leb a b && Nat.leb b (length d) then Ok (slice d a b) else Panic.

(** fastMatcher.go:94-117 - [literalFromSlot]; slot numbers start at 1. *)
Definition literalFromSlot (E : menv) (slots : list (nat * nat)) (slot : nat) : outcome fastval :=
  match slot with
  | O => Panic
  | S i =>
      do (start, size) <- idx slots i;
      match step (me_doc E) start with
      | SErr => Ok (plain VMissing)
      | SOk t a b =>
          if isLiteralToken t then parseLit (me_o E) t (slice (me_doc E) a b)
          else if Nat.ltb 0 size then
            match t with
            | TObjectStart => do x <- goSlice (me_doc E) start (start + size); Ok (plain (VObject x))
            | TArrayStart => do x <- goSlice (me_doc E) start (start + size); Ok (plain (VArray x))
            | _ => Ok (plain VMissing)
            end
          else Ok (plain VMissing)
      end
  end.

(** constants.go:11-38 and the dispatch of fastMatcher.go:119-206. *)
Inductive fn := Fn1 (f : oracles -> fastval -> outcome fastval) | Fn2 (f : oracles -> fastval -> fastval -> outcome fastval).
Definition funTable : list (bytes * fn) :=
  [ (s2b "mathAbs", Fn1 mathAbs);
    (s2b "mathAcos", Fn1 (fun o => mathFun1 o FAcos));
    (s2b "mathAsin", Fn1 (fun o => mathFun1 o FAsin));
    (s2b "mathAtan", Fn1 (fun o => mathFun1 o FAtan));
    (s2b "mathAtan2", Fn2 (fun o => mathFun2 o FAtan2));
    (s2b "mathRound", Fn1 mathRound);
    (s2b "mathCos", Fn1 (fun o => mathFun1 o FCos));
    (s2b "mathSin", Fn1 (fun o => mathFun1 o FSin));
    (s2b "mathTan", Fn1 (fun o => mathFun1 o FTan));
    (s2b "mathSqrt", Fn1 (fun o => mathFun1 o FSqrt));
    (s2b "mathExp", Fn1 (fun o => mathFun1 o FExp));
    (s2b "mathLn", Fn1 (fun o => mathFun1 o FLn));
    (s2b "mathLog", Fn1 (fun o => mathFun1 o FLog));
    (s2b "mathCeil", Fn1 (fun o => mathFun1 o FCeil));
    (s2b "mathFloor", Fn1 (fun o => mathFun1 o FFloor));
    (s2b "mathDegrees", Fn1 mathDegrees);
    (s2b "mathRadians", Fn1 mathRadiansV);
    (s2b "mathPow", Fn2 (fun o => mathFun2 o FPow));
    (s2b "date", Fn1 (fun o v => Ok (plain (dateFunc o (fv v)))));
    (s2b "mathAdd", Fn2 mathAdd);
    (s2b "mathSubract", Fn2 mathSub);
    (s2b "mathMultiply", Fn2 mathMul);
    (s2b "mathDivide", Fn2 mathDiv);
    (s2b "mathModulo", Fn2 mathMod);
    (s2b "mathNegate", Fn1 mathNeg) ].
Fixpoint funLookup (name : bytes) (l : list (bytes * fn)) : option fn :=
  match l with
  | [] => None
  | (n, f) :: r => if bytes_eqb name n then Some f else funLookup name r
  end.

(** fastMatcher.go:119-225 - [resolveFunc], [resolveParam], with reading a slot as
    a parameter. *)
Fixpoint resolveParam (o : oracles) (slotVal : nat -> outcome fastval) (d : dref)
         (lit : option fastval) : outcome fastval :=
  match d with
  | DVal v => Ok v
  | DActive => match lit with Some v => Ok v | None => Panic end
  | DSlot s => slotVal s
  | DFunc name ps =>
      match funLookup name funTable with
      | None => Panic
      | Some (Fn1 f) =>
          match ps with
          | p1 :: _ => do a <- resolveParam o slotVal p1 lit; f o a
          | [] => Panic
          end
      | Some (Fn2 f) =>
          match ps with
          | p1 :: rest =>
              do a <- resolveParam o slotVal p1 lit;
              match rest with
              | p2 :: _ => do b <- resolveParam o slotVal p2 lit; f o a b
              | [] => Panic
              end
          | [] => Panic
          end
      end
  end.

(** fastMatcher.go:237-257 - one operand: its value, and whether it is a slot
    without a value. *)
Definition operand (o : oracles) (slotVal : nat -> outcome fastval) (d : option dref) (lit : option fastval)
  : outcome (fastval * bool) :=
  match d with
  | Some r =>
      do v <- resolveParam o slotVal r lit;
      Ok (v, match r with DSlot _ => isMissing (fv v) | _ => false end)
  | None => Ok (match lit with Some v => v | None => plain VMissing end, false)
  end.

(** fastMatcher.go:270-295 - the operation itself: result and validity. *)
Definition applyOp (o : oracles) (op : optype) (l r : fastval) : bool * bool :=
  match op with
  | OpEquals => equals o l r
  | OpLessThan => let '(c, ok) := compare o l r in (Z.ltb c 0, ok)
  | OpLessEquals => let '(c, ok) := compare o l r in (Z.leb c 0, ok)
  | OpGreaterThan => let '(c, ok) := compare o l r in (Z.ltb 0 c, ok)
  | OpGreaterEquals => let '(c, ok) := compare o l r in (Z.leb 0 c, ok)
  | OpMatches => matches o l r
  | OpExists => (true, true)
  end.

(** fastMatcher.go:235-295 - the outcome of an op: result, and whether the
    collation flag is raised. *)
Definition opResult (o : oracles) (slotVal : nat -> outcome fastval) (op : opnode) (lit : option fastval)
  : outcome (bool * bool) :=
  do (l, m1) <- operand o slotVal (op_lhs op) lit;
  do (r, m2) <- operand o slotVal (op_rhs op) lit;
  if m1 || m2 then Ok (false, false)
  else let '(res, ok) := applyOp o (op_op op) l r in Ok (res, negb ok).

(** fastMatcher.go:227-309 - [matchOp]; it never returns an error. *)
Definition matchOp (E : menv) (op : opnode) (lit : option fastval) (s : mst) : outcome mst :=
  do done <- isResolved (ms_data s) (op_bucket op);
  if done then Ok s
  else
    do (res, coll) <- opResult (me_o E) (literalFromSlot E (ms_slots s)) op lit;
    do d <- mark (me_tree E) (ms_stall s) (ms_data s) (op_bucket op) res;
    Ok (let sa := setData s d in if coll : bool then setColl sa else sa).

(** The op loops of fastMatcher.go:546-557, 582-591, 614-623, 659-668: the flag says
    that the whole expression got resolved and the caller returns. *)
Fixpoint runOps (E : menv) (ops : list opnode) (lit : option fastval) (s : mst) : outcome (mst * bool) :=
  match ops with
  | [] => Ok (s, false)
  | op :: r =>
      do sa <- matchOp E op lit s;
      do done <- isResolved (ms_data sa) 0;
      if done then Ok (sa, true) else runOps E r lit sa
  end.

(** fmt.Sprintf("[%d]", i) (fastMatcher.go:775). *)
Definition indexKey (i : nat) : bytes := [91%N] ++ appendUint (Z.of_nat i) ++ [93%N].

(** The key bytes of an object member (fastMatcher.go:754-771, 788); [None] is the
    panic on a token that cannot start a key. *)
Definition keyOf (t : tok) (l : bytes) : outcome bytes :=
  match t with
  | TString => Ok (parseString l)
  | TEscString => match parseEscString l (repeat 0%N 64) with
                  | Ok (b, _, _) => Ok b
                  | Err => Err | Panic => Panic | OutOfFuel => OutOfFuel
                  end
  | TArrayStart | TObjectStart => Ok []
  | _ => Panic
  end.

(** fastMatcher.go:691-697 - store the extent of the value. *)
Definition storeSlot (x : execnode) (start : nat) (s : mst) : outcome mst :=
  match x_store x with
  | O => Ok s
  | S i =>
      do _ <- idx (ms_slots s) i;
      Ok (setSlots s (upd (ms_slots s) i (start, ms_pos s - start)%nat))
  end.

Definition endTok (t : tok) : tok := match t with TObjectStart => TObjectEnd | _ => TArrayEnd end.
Definition isArr (t : tok) : bool := match t with TArrayStart => true | _ => false end.

(** The mutually recursive part: [matchExec] (564-700), [matchObjectOrArray]
    (703-809), [matchLoop] (388-520) and its iterations, [matchAfter] (522-562)
    and its loops.  [a] is where the current token starts; the tokenizer stands
    right after it. *)
Fixpoint matchExec (fuel : nat) (E : menv) (t : tok) (a : nat) (n : nat) (s : mst) {struct fuel}
  : outcome (mst * bool) :=
  match fuel with
  | O => OutOfFuel
  | S f =>
      do x <- idx (me_heap E) n;
      (* 680-699 *)
      let finish := fun s : mst =>
        do (sa, ret) <-
          match x_after x with
          | None => Ok (s, false)
          | Some af =>
              do (sa, _) <- matchAfter f E af s;
              do done <- isResolved (ms_data sa) 0;
              Ok (sa, done)
          end;
        if ret : bool then Ok (sa, false)
        else do s2 <- storeSlot x a sa; Ok (s2, false) in
      (* the op loop followed by the rest *)
      let ops := fun (lit : fastval) (s : mst) =>
        do (sa, ret) <- runOps E (x_ops x) (Some lit) s;
        if ret : bool then Ok (sa, false) else finish sa in
      if isLiteralToken t then
        do lit <- parseLit (me_o E) t (slice (me_doc E) a (ms_pos s));
        ops lit s
      else
        match t with
        | TObjectStart =>
            let start := (ms_pos s - 1)%nat in
            do (sa, early) <-
              match x_elems x with
              | [] => do (sa, _) <- skipValue E t s; Ok (sa, None)
              | _ =>
                  do (sa, err, ret) <- matchOA f E t x true 0 s;
                  do (s2, _) <- (if err : bool then Ok (sa, false)
                                 else match x_after x with
                                      | None => Ok (sa, false)
                                      | Some af => matchAfter f E af sa
                                      end);
                  if ret : bool then Ok (s2, Some err)
                  else do done <- isResolved (ms_data s2) 0;
                       Ok (s2, if done : bool then Some false else None)
              end;
            match early with
            | Some err => Ok (sa, err)
            | None => do b <- goSlice (me_doc E) start (ms_pos sa); ops (plain (VObject b)) sa
            end
        | TArrayStart =>
            let start := (ms_pos s - 1)%nat in
            do (sa, early) <-
              match x_loops x with
              | [] =>
                  do (sa, err, ret) <- matchOA f E t x true 0 s;
                  Ok (sa, if ret : bool then Some err else None)
              | ls => matchLoops f E t ls (ms_pos s) true s
              end;
            match early with
            | Some err => Ok (sa, err)
            | None => do b <- goSlice (me_doc E) start (ms_pos sa); ops (plain (VArray b)) sa
            end
        | _ => Panic
        end
  end
(** 627-656: the loops of a node over one array; [Some err] means the caller
    returns [err]. *)
with matchLoops (fuel : nat) (E : menv) (t : tok) (ls : list loopnode) (save : nat) (first : bool) (s : mst)
  {struct fuel} : outcome (mst * option bool) :=
  match fuel with
  | O => OutOfFuel
  | S f =>
      match ls with
      | [] => Ok (s, None)
      | l :: r =>
          match lp_target l with
          | Some _ => Panic
          | None =>
              let si := if first then s else setPos s save in
              do (sa, err) <- matchLoop f E t l si;
              if err : bool then Ok (sa, Some true)
              else do done <- isResolved (ms_data sa) 0;
                   if done : bool then Ok (sa, Some false) else matchLoops f E t r save false sa
          end
      end
  end
(** 703-809; the result is the error and the should-return flag. *)
with matchOA (fuel : nat) (E : menv) (t : tok) (x : execnode) (first : bool) (i : nat) (s : mst)
  {struct fuel} : outcome (mst * bool * bool) :=
  match fuel with
  | O => OutOfFuel
  | S f =>
      (* 725-744 *)
      let body := fun (i : nat) (s : mst) =>
        match step (me_doc E) (ms_pos s) with
        | SErr => Ok (s, true, true)
        | SOk t1 a1 b1 =>
            let sa := setPos s b1 in
            if tok_eqb t1 (endTok t) then Ok (sa, false, true)
            else
              (* 754-789: key, value token *)
              do kv <-
                (if isArr t then Ok (Some (indexKey i, t1, a1, sa))
                 else
                   do key <- keyOf t1 (slice (me_doc E) a1 b1);
                   match step (me_doc E) (ms_pos sa) with
                   | SErr => Ok None
                   | SOk t2 _ b2 =>
                       if tok_eqb t2 TObjectKeyDelim then
                         match step (me_doc E) b2 with
                         | SErr => Ok None
                         | SOk t3 a3 b3 => Ok (Some (key, t3, a3, setPos sa b3))
                         end
                       else Panic
                   end);
              match kv with
              | None =>
                  (* an error of the second or third Step; the position is after
                     the last token that was read *)
                  Ok (match step (me_doc E) (ms_pos sa) with
                      | SErr => sa
                      | SOk _ _ b2 => setPos sa b2
                      end, true, true)
              | Some (key, tv, av, s2) =>
                  match lookup key (x_elems x) with
                  | Some c =>
                      do (s3, _) <- matchExec f E tv av c s2;
                      do done <- isResolved (ms_data s3) 0;
                      if done : bool then Ok (s3, false, true)
                      else matchOA f E t x false i s3
                  | None =>
                      do (s3, _) <- skipValue E tv s2;
                      matchOA f E t x false i s3
                  end
              end
        end in
      if first then body i s
      else
        match step (me_doc E) (ms_pos s) with
        | SErr => Ok (s, true, true)
        | SOk t1 _ b1 =>
            let sa := setPos s b1 in
            match t1 with
            | TObjectEnd | TArrayEnd => Ok (sa, false, false)
            | TEnd => Ok (sa, false, true)
            | TListDelim => body (S i) sa
            | _ => Panic
            end
        end
  end
(** 388-520. *)
with matchLoop (fuel : nat) (E : menv) (t : tok) (l : loopnode) (s : mst) {struct fuel} : outcome (mst * bool) :=
  match fuel with
  | O => OutOfFuel
  | S f =>
      if negb (isArr t) then Ok (s, false)
      else
        let k := lp_bucket l in
        do done <- isResolved (ms_data s) k;
        if done : bool then do (sa, _) <- skipValue E t s; Ok (sa, false)
        else
          let prev := ms_stall s in
          do (sa, err, res) <- matchIters f E l true (loopInit (lp_mode l)) (setStall s k);
          if err : bool then Ok (sa, true)
          else
            do d <- resetNode (me_tree E) (ms_data sa) k;
            let s2 := setStall (setData sa d) prev in
            do d2 <- mark (me_tree E) prev d k res;
            Ok (setData s2 d2, false)
  end
(** 425-498: the iterations; error and loop state. *)
with matchIters (fuel : nat) (E : menv) (l : loopnode) (first : bool) (st : bool) (s : mst) {struct fuel}
  : outcome (mst * bool * bool) :=
  match fuel with
  | O => OutOfFuel
  | S f =>
      let body := fun s : mst =>
        match step (me_doc E) (ms_pos s) with
        | SErr => Ok (s, true, st)
        | SOk t1 a1 b1 =>
            let sa := setPos s b1 in
            if tok_eqb t1 TArrayEnd then Ok (sa, false, st)
            else
              do d <- resetNode (me_tree E) (ms_data sa) (lp_bucket l);
              do (s2, err) <- matchExec f E t1 a1 (lp_node l) (setData sa d);
              if err : bool then Ok (s2, true, st)
              else
                do matched <- isTrue (ms_data s2) (lp_bucket l);
                let '(st', out) := loopStep (lp_mode l) st matched in
                if out : bool then do (s3, _) <- leave E s2; Ok (s3, false, st')
                else matchIters f E l false st' s2
        end in
      if first then body s
      else
        match step (me_doc E) (ms_pos s) with
        | SErr => Ok (s, true, st)
        | SOk t1 _ b1 =>
            let sa := setPos s b1 in
            match t1 with
            | TArrayEnd => Ok (sa, false, st)
            | TListDelim => body sa
            | _ => Panic
            end
        end
  end
(** 522-562. *)
with matchAfter (fuel : nat) (E : menv) (af : afternode) (s : mst) {struct fuel} : outcome (mst * bool) :=
  match fuel with
  | O => OutOfFuel
  | S f =>
      let save := ms_pos s in
      do (sa, early) <- afterLoops f E (af_loops af) s;
      match early with
      | Some err => Ok (sa, err)
      | None =>
          do (s2, ret) <- runOps E (af_ops af) None sa;
          if ret : bool then Ok (s2, false) else Ok (setPos s2 save, false)
      end
  end
(** 526-543. *)
with afterLoops (fuel : nat) (E : menv) (ls : list loopnode) (s : mst) {struct fuel}
  : outcome (mst * option bool) :=
  match fuel with
  | O => OutOfFuel
  | S f =>
      match ls with
      | [] => Ok (s, None)
      | l :: r =>
          match lp_target l with
          | Some (DSlot (S i)) =>
              do (start, _) <- idx (ms_slots s) i;
              let '(t, p) := match step (me_doc E) start with
                             | SErr => (TUnknown, start)
                             | SOk t _ b => (t, b)
                             end in
              do (sa, err) <- matchLoop f E t l (setPos s p);
              if err : bool then Ok (sa, Some true)
              else do done <- isResolved (ms_data sa) 0;
                   if done : bool then Ok (sa, Some false) else afterLoops f E r sa
          | _ => Panic
          end
      end
  end.

(** fastMatcher.go:24-37 - [NewFastMatcher] and [Reset] (which leaves the status
    flag alone, and resets as many slots as the definition has). *)
Definition newMatcher (D : matchdef) : mst :=
  MSt (repeat (0, 0)%nat (d_slots D)) (newState (d_tree D)) 0 0 false.
Definition resetMatcher (s : mst) : mst :=
  let '(d, st) := resetState (ms_data s) in
  MSt (map (fun _ => (0, 0)%nat) (ms_slots s)) d st (ms_pos s) (ms_coll s).

(** fastMatcher.go:811-833 - [Match]: the new state and the result, [None] when an
    error is returned. *)
Definition match_ (fuel : nat) (o : oracles) (D : matchdef) (doc : bytes) (s : mst) : outcome (mst * option bool) :=
  let si := setPos s 0 in
  match doc with
  | [] => Ok (si, Some false)
  | _ =>
      match step doc 0 with
      | SErr => Ok (si, None)
      | SOk t a b =>
          match d_heap D with
          | None =>
              (* a nil ParseNode is dereferenced by every kind of value *)
              Panic
          | Some h =>
              let E := MEnv o h (d_tree D) doc in
              do (sa, err) <- matchExec fuel E t a 0 (setPos si b);
              if err : bool then Ok (sa, None)
              else
                do d <- resolveAll (d_tree D) (ms_stall sa) (ms_data sa);
                do r <- isTrue d 0;
                Ok (setData sa d, Some r)
          end
      end
  end.

(** fastMatcher.go:835-842 - [MatchWithStatus]: also the collation flag. *)
Definition matchWithStatus (fuel : nat) (o : oracles) (D : matchdef) (doc : bytes) (s : mst)
  : outcome (mst * option bool * bool) :=
  do (sa, r) <- match_ fuel o D doc s; Ok (sa, r, ms_coll sa).

(** fastMatcher.go:844-848 - [ExpressionMatched]. *)
Definition expressionMatched (D : matchdef) (s : mst) (i : nat) : outcome bool :=
  do z <- idx (d_buckets D) i;
  if Z.ltb z 0 then Panic
  else do r <- isResolved (ms_data s) (Z.to_nat z);
       if r : bool then isTrue (ms_data s) (Z.to_nat z) else Ok false.
