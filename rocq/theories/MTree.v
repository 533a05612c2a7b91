(** The matcher re-read as an interpreter over syntax trees instead of bytes.

    This file models no further code: [tExec] and its companions follow the
    control flow of MMatcher.v call by call, but take the value at hand as a
    concrete syntax tree, so there is no position, no tokenizer, no returned
    error.  PTree.v proves that on well-formed documents the two agree.  [Err]
    marks one situation the tree reading cannot describe: the whole expression
    becoming resolved inside a loop (which a tree built by the compiler excludes). *)
From Coq Require Import String.
From Verif Require Import Base MTokenizer SJson MLit MFastVal MMath SEvents MBinTree MSession MExpr MTransform MMatcher.
From Coq Require Import List NArith ZArith Arith Lia Bool.
Import ListNotations.

(** State: slots hold subtrees of the document. *)
Record tst := TSt {
  ts_slots : list (option cst);
  ts_data : sdata;
  ts_stall : nat;
  ts_coll : bool
}.
Definition tSetData (s : tst) (d : sdata) := TSt (ts_slots s) d (ts_stall s) (ts_coll s).
Definition tSetStall (s : tst) (k : nat) := TSt (ts_slots s) (ts_data s) k (ts_coll s).
Definition tSetSlots (s : tst) (l : list (option cst)) := TSt l (ts_data s) (ts_stall s) (ts_coll s).
Definition tSetColl (s : tst) := TSt (ts_slots s) (ts_data s) (ts_stall s) true.

(** The value of a tree; containers are their text. *)
Definition valOf (o : oracles) (v : cst) : outcome fastval :=
  match v with
  | CLit t x => parseLit o t x
  | CArr _ _ => Ok (plain (VArray (render v)))
  | CObj _ _ => Ok (plain (VObject (render v)))
  end.

(** The members of a container under the keys the matcher looks up. *)
Fixpoint arrItems (i : nat) (es : list (elt cst)) : list (outcome bytes * cst) :=
  match es with
  | [] => []
  | e :: r => (Ok (indexKey i), e_v e) :: arrItems (S i) r
  end.
Definition items (v : cst) : list (outcome bytes * cst) :=
  match v with
  | CLit _ _ => []
  | CArr es _ => arrItems 0 es
  | CObj ms _ => map (fun m => (keyOf (m_kt m) (m_kx m), m_v m)) ms
  end.

Section Tree.
  Variable o : oracles.
  Variable H : list execnode.
  Variable T : list node.
  (** The document: reading a slot that was never set reads its first token. *)
  Variable root : cst.

  Definition slotVal (slots : list (option cst)) (slot : nat) : outcome fastval :=
    match slot with
    | O => Panic
    | S i =>
        do x <- idx slots i;
        match x with
        | Some v => valOf o v
        | None => match root with CLit _ _ => valOf o root | _ => Ok (plain VMissing) end
        end
    end.

  Definition tMatchOp (op : opnode) (lit : option fastval) (s : tst) : outcome tst :=
    do done <- isResolved (ts_data s) (op_bucket op);
    if done then Ok s
    else
      do (res, coll) <- opResult o (slotVal (ts_slots s)) op lit;
      do d <- mark T (ts_stall s) (ts_data s) (op_bucket op) res;
      Ok (let sa := tSetData s d in if coll : bool then tSetColl sa else sa).

  Fixpoint tRunOps (ops : list opnode) (lit : option fastval) (s : tst) : outcome (tst * bool) :=
    match ops with
    | [] => Ok (s, false)
    | op :: r =>
        do sa <- tMatchOp op lit s;
        do done <- isResolved (ts_data sa) 0;
        if done then Ok (sa, true) else tRunOps r lit sa
    end.

  Definition tStore (x : execnode) (v : cst) (s : tst) : outcome tst :=
    match x_store x with
    | O => Ok s
    | S i => do _ <- idx (ts_slots s) i; Ok (tSetSlots s (upd (ts_slots s) i (Some v)))
    end.

  (** The flag of [tExec], [tLoops], [tAfter]: the whole expression is resolved and
      the matcher is on its way out. *)
  Fixpoint tExec (fuel : nat) (v : cst) (n : nat) (s : tst) {struct fuel} : outcome (tst * bool) :=
    match fuel with
    | O => OutOfFuel
    | S f =>
        do x <- idx H n;
        let finish := fun s : tst =>
          do (sa, ret) <-
            match x_after x with
            | None => Ok (s, false)
            | Some af =>
                do (sa, _) <- tAfter f af s;
                do done <- isResolved (ts_data sa) 0;
                Ok (sa, done)
            end;
          if ret : bool then Ok (sa, true)
          else do s2 <- tStore x v sa; Ok (s2, false) in
        let ops := fun (s : tst) =>
          do lit <- valOf o v;
          do (sa, ret) <- tRunOps (x_ops x) (Some lit) s;
          if ret : bool then Ok (sa, true) else finish sa in
        match v with
        | CLit _ _ => ops s
        | CObj _ _ =>
            match x_elems x with
            | [] => ops s
            | _ =>
                do (sa, ret, out) <- tOA f (items v) x true s;
                do (s2, _) <- match x_after x with
                              | None => Ok (sa, false)
                              | Some af => tAfter f af sa
                              end;
                if ret : bool then match isResolved (ts_data s2) 0 with
                                   | Ok done => if implb out done then Ok (s2, done) else Err
                                   | _ => Err
                                   end
                else do done <- isResolved (ts_data s2) 0;
                     if done : bool then Ok (s2, true) else ops s2
            end
        | CArr es _ =>
            match x_loops x with
            | [] =>
                do (sa, ret, out) <- tOA f (items v) x true s;
                if ret : bool then Ok (sa, out) else ops sa
            | ls =>
                do (sa, out) <- tLoops f ls es s;
                if out : bool then Ok (sa, true) else ops sa
            end
        end
    end
  with tLoops (fuel : nat) (ls : list loopnode) (es : list (elt cst)) (s : tst) {struct fuel} : outcome (tst * bool) :=
    match fuel with
    | O => OutOfFuel
    | S f =>
        match ls with
        | [] => Ok (s, false)
        | l :: r =>
            match lp_target l with
            | Some _ => Panic
            | None =>
                do sa <- tLoop f l es s;
                do done <- isResolved (ts_data sa) 0;
                if done : bool then Ok (sa, true) else tLoops f r es sa
            end
        end
    end
  (** Results: should-return flag; on-the-way-out flag. *)
  with tOA (fuel : nat) (its : list (outcome bytes * cst)) (x : execnode) (first : bool) (s : tst) {struct fuel}
    : outcome (tst * bool * bool) :=
    match fuel with
    | O => OutOfFuel
    | S f =>
        match its with
        | [] => Ok (s, first, false)
        | (k, v) :: r =>
            do key <- k;
            match lookup key (x_elems x) with
            | Some c =>
                do (sa, out) <- tExec f v c s;
                do done <- isResolved (ts_data sa) 0;
                if done : bool then Ok (sa, true, true)
                else if out : bool then Err
                else tOA f r x false sa
            | None => tOA f r x false s
            end
        end
    end
  with tLoop (fuel : nat) (l : loopnode) (es : list (elt cst)) (s : tst) {struct fuel} : outcome tst :=
    match fuel with
    | O => OutOfFuel
    | S f =>
        let k := lp_bucket l in
        do done <- isResolved (ts_data s) k;
        if done : bool then Ok s
        else
          let prev := ts_stall s in
          do (sa, res) <- tIters f l es (loopInit (lp_mode l)) (tSetStall s k);
          do d <- resetNode T (ts_data sa) k;
          do d2 <- mark T prev d k res;
          Ok (tSetData (tSetStall (tSetData sa d) prev) d2)
    end
  with tIters (fuel : nat) (l : loopnode) (es : list (elt cst)) (st : bool) (s : tst) {struct fuel}
    : outcome (tst * bool) :=
    match fuel with
    | O => OutOfFuel
    | S f =>
        match es with
        | [] => Ok (s, st)
        | e :: r =>
            do d <- resetNode T (ts_data s) (lp_bucket l);
            do (s2, out) <- tExec f (e_v e) (lp_node l) (tSetData s d);
            if out : bool then Err
            else
              do matched <- isTrue (ts_data s2) (lp_bucket l);
              let '(st', leave) := loopStep (lp_mode l) st matched in
              if leave : bool then Ok (s2, st') else tIters f l r st' s2
        end
    end
  with tAfter (fuel : nat) (af : afternode) (s : tst) {struct fuel} : outcome (tst * bool) :=
    match fuel with
    | O => OutOfFuel
    | S f =>
        do (sa, out) <- tAfterLoops f (af_loops af) s;
        if out : bool then Ok (sa, true)
        else tRunOps (af_ops af) None sa
    end
  with tAfterLoops (fuel : nat) (ls : list loopnode) (s : tst) {struct fuel} : outcome (tst * bool) :=
    match fuel with
    | O => OutOfFuel
    | S f =>
        match ls with
        | [] => Ok (s, false)
        | l :: r =>
            match lp_target l with
            | Some (DSlot (S i)) =>
                do v <- idx (ts_slots s) i;
                do sa <-
                  match (match v with Some w => w | None => root end) with
                  | CArr es _ => tLoop f l es s
                  | _ => match f with O => OutOfFuel | S _ => Ok s end
                  end;
                do done <- isResolved (ts_data sa) 0;
                if done : bool then Ok (sa, true) else tAfterLoops f r sa
            | _ => Panic
            end
        end
    end.

  (** The whole document. *)
  Definition tMatch (fuel : nat) (s : tst) : outcome (tst * bool) :=
    do (sa, _) <- tExec fuel root 0 s;
    do d <- resolveAll T (ts_stall sa) (ts_data sa);
    do r <- isTrue d 0;
    Ok (tSetData sa d, r).
End Tree.
