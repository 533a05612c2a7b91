(** The package-level buffer of fastval.go:90 through which numbers are turned into strings,
    and matchers that run at the same time.

    A matcher's run is a program whose only shared actions are these conversions; the
    functions below repeat MFastVal.v and MMatcher.v with the conversion as an action.
    Simplifications: memory is sequentially consistent, and a statement of
    fastval.go:435-445 is one step each (the append writes the whole text at once). *)
From Coq Require Import String.
From Verif Require Import Base MTokenizer MLit MFastVal MMath SEvents MBinTree MSession MExpr MTransform MMatcher.
From Coq Require Import List NArith ZArith Arith Lia Bool.
Import ListNotations.
Open Scope nat_scope.

(** Finished, or about to convert a number with the text [t] and to go on with what is read back. *)
Inductive prog (A : Type) := Done (r : outcome A) | Conv (t : bytes) (k : bytes -> prog A).
Arguments Done {A}. Arguments Conv {A}.
Fixpoint bindP {A B : Type} (p : prog A) (k : A -> prog B) : prog B :=
  match p with
  | Done (Ok a) => k a
  | Done Err => Done Err | Done Panic => Done Panic | Done OutOfFuel => Done OutOfFuel
  | Conv t g => Conv t (fun b => bindP (g b) k)
  end.
Coercion Done : outcome >-> prog.
Notation "'doP' x <- a ; b" := (bindP a (fun x => b)) (at level 200, x pattern, a at level 100, b at level 200).

(** fastval.go:429-450 - [toJsonStringInternal]. *)
Definition toJsonStringInternalP (o : oracles) (v : fval) : prog (fval * bool) :=
  let '(w, ok) := toJsonString o v in
  if ok then Done (Ok (w, true))
  else match w with
       | VUint n => Conv (appendUint n) (fun b => Done (Ok (VJsonString b, true)))
       | VInt z => Conv (appendInt z) (fun b => Done (Ok (VJsonString b, true)))
       | VFloat f => Conv (o_fmtE o f) (fun b => Done (Ok (VJsonString b, true)))
       | _ => Done (Ok (w, false))
       end.
(** fastval.go:582-606. *)
Definition compareStringsP (o : oracles) (v : fval) (w : fastval) : prog (Z * bool) :=
  if isString (fv w) || isNumeric (fv w) then
    doP (x, ok) <- toJsonStringInternalP o v;
    doP (y, ok2) <- toJsonStringInternalP o (fv w);
    Done (Ok (cmpBytes (sliceData x) (sliceData y), ok && ok2))
  else Done (Ok (compareStrings o v w)).
(** fastval.go:860-895, 663-666, 715-741, 679-712, 897-904. *)
Definition compareInternalP (o : oracles) (v w : fastval) : prog (Z * bool) :=
  match fv v with
  | VString _ | VBinString _ | VJsonString _ => compareStringsP o (fv v) w
  | _ => Done (Ok (compareInternal o v w))
  end.
Definition reverseCompareP (o : oracles) (v w : fastval) : prog (Z * bool) :=
  doP (r, ok) <- compareInternalP o w v; Done (Ok ((- r)%Z, ok)).
Definition compareUserDefinedP (o : oracles) (v w : fastval) : prog (Z * bool) :=
  let bothAreNumeric := isNumeric (fv v) && isNumeric (fv w) in
  if userDefined v then
    if negb (checkCompatibility o (fv v) (fv w)) then
      if bothAreNumeric then reverseCompareP o v w else Done (Ok (collate (fv v) (fv w)))
    else compareInternalP o v w
  else
    if negb (checkCompatibility o (fv w) (fv v)) then
      if bothAreNumeric then reverseCompareP o v w else Done (Ok (collate (fv v) (fv w)))
    else reverseCompareP o v w.
Definition compareP (o : oracles) (v w : fastval) : prog (Z * bool) :=
  if userDefined v || userDefined w then compareUserDefinedP o v w
  else if isSameDataTypeAs (fv v) (fv w) then compareInternalP o v w
  else if (vrank (dataType (fv v)) <? vrank (dataType (fv w)))%Z then
    if negb (checkCompatibility o (fv v) (fv w)) then
      if negb (checkCompatibility o (fv w) (fv v)) then Done (Ok (collate (fv v) (fv w)))
      else reverseCompareP o v w
    else compareInternalP o v w
  else
    if negb (checkCompatibility o (fv w) (fv v)) then
      if negb (checkCompatibility o (fv v) (fv w)) then Done (Ok (collate (fv v) (fv w)))
      else compareInternalP o v w
    else reverseCompareP o v w.
(** fastMatcher.go:270-295; [Matches] is called on strings and does not convert numbers. *)
Definition applyOpP (o : oracles) (op : optype) (l r : fastval) : prog (bool * bool) :=
  match op with
  | OpEquals => doP (c, ok) <- compareP o l r; Done (Ok (ok && (c =? 0)%Z, ok))
  | OpLessThan => doP (c, ok) <- compareP o l r; Done (Ok (Z.ltb c 0, ok))
  | OpLessEquals => doP (c, ok) <- compareP o l r; Done (Ok (Z.leb c 0, ok))
  | OpGreaterThan => doP (c, ok) <- compareP o l r; Done (Ok (Z.ltb 0 c, ok))
  | OpGreaterEquals => doP (c, ok) <- compareP o l r; Done (Ok (Z.leb 0 c, ok))
  | OpMatches => Done (Ok (matches o l r))
  | OpExists => Done (Ok (true, true))
  end.
(** fastMatcher.go:235-295, 227-309 and the op loops. *)
Definition opResultP (o : oracles) (slotVal : nat -> outcome fastval) (op : opnode) (lit : option fastval) : prog (bool * bool) :=
  doP (l, m1) <- Done (operand o slotVal (op_lhs op) lit);
  doP (r, m2) <- Done (operand o slotVal (op_rhs op) lit);
  if m1 || m2 then Done (Ok (false, false))
  else doP (res, ok) <- applyOpP o (op_op op) l r; Done (Ok (res, negb ok)).
Definition matchOpP (E : menv) (op : opnode) (lit : option fastval) (s : mst) : prog mst :=
  doP done <- Done (isResolved (ms_data s) (op_bucket op));
  if done : bool then Done (Ok s)
  else
    doP (res, coll) <- opResultP (me_o E) (literalFromSlot E (ms_slots s)) op lit;
    doP d <- Done (mark (me_tree E) (ms_stall s) (ms_data s) (op_bucket op) res);
    Done (Ok (let sa := setData s d in if coll : bool then setColl sa else sa)).
Fixpoint runOpsP (E : menv) (ops : list opnode) (lit : option fastval) (s : mst) : prog (mst * bool) :=
  match ops with
  | [] => Done (Ok (s, false))
  | op :: r =>
      doP sa <- matchOpP E op lit s;
      doP done <- Done (isResolved (ms_data sa) 0);
      if done : bool then Done (Ok (sa, true)) else runOpsP E r lit sa
  end.

(** The mutually recursive part: [matchExec] (564-700), [matchObjectOrArray]
    (703-809), [matchLoop] (388-520) and its iterations, [matchAfter] (522-562)
    and its loops.  [a] is where the current token starts; the tokenizer stands
    right after it. *)
Fixpoint matchExecP (fuel : nat) (E : menv) (t : tok) (a : nat) (n : nat) (s : mst) {struct fuel}
  : prog (mst * bool) :=
  match fuel with
  | O => OutOfFuel
  | S f =>
      doP x <- idx (me_heap E) n;
      (* 680-699 *)
      let finish (s : mst) : prog (mst * bool) :=
        doP (sa, ret) <-
          match x_after x with
          | None => Ok (s, false)
          | Some af =>
              doP (sa, _) <- matchAfterP f E af s;
              doP done <- isResolved (ms_data sa) 0;
              Ok (sa, done)
          end;
        if ret : bool then Ok (sa, false)
        else doP s2 <- storeSlot x a sa; Ok (s2, false) in
      (* the op loop followed by the rest *)
      let ops (lit : fastval) (s : mst) : prog (mst * bool) :=
        doP (sa, ret) <- runOpsP E (x_ops x) (Some lit) s;
        if ret : bool then Ok (sa, false) else finish sa in
      if isLiteralToken t then
        doP lit <- parseLit (me_o E) t (slice (me_doc E) a (ms_pos s));
        ops lit s
      else
        match t with
        | TObjectStart =>
            let start := (ms_pos s - 1)%nat in
            doP (sa, early) <-
              match x_elems x with
              | [] => doP (sa, _) <- skipValue E t s; Ok (sa, None)
              | _ =>
                  doP (sa, err, ret) <- matchOAP f E t x true 0 s;
                  doP (s2, _) <- (if err : bool then Ok (sa, false)
                                 else match x_after x with
                                      | None => Ok (sa, false)
                                      | Some af => matchAfterP f E af sa
                                      end);
                  if ret : bool then Ok (s2, Some err)
                  else doP done <- isResolved (ms_data s2) 0;
                       Ok (s2, if done : bool then Some false else None)
              end;
            match early with
            | Some err => Ok (sa, err)
            | None => doP b <- goSlice (me_doc E) start (ms_pos sa); ops (plain (VObject b)) sa
            end
        | TArrayStart =>
            let start := (ms_pos s - 1)%nat in
            doP (sa, early) <-
              match x_loops x with
              | [] =>
                  doP (sa, err, ret) <- matchOAP f E t x true 0 s;
                  Ok (sa, if ret : bool then Some err else None)
              | ls => matchLoopsP f E t ls (ms_pos s) true s
              end;
            match early with
            | Some err => Ok (sa, err)
            | None => doP b <- goSlice (me_doc E) start (ms_pos sa); ops (plain (VArray b)) sa
            end
        | _ => Panic
        end
  end
(** 627-656: the loops of a node over one array; [Some err] means the caller
    returns [err]. *)
with matchLoopsP (fuel : nat) (E : menv) (t : tok) (ls : list loopnode) (save : nat) (first : bool) (s : mst)
  {struct fuel} : prog (mst * option bool) :=
  match fuel with
  | O => OutOfFuel
  | S f =>
      match ls with
      | [] => Ok (s, None)
      | l :: r =>
          match lp_target l with
          | Some _ => Panic
          | None =>
              let si := if first then s else setPos s save in
              doP (sa, err) <- matchLoopP f E t l si;
              if err : bool then Ok (sa, Some true)
              else doP done <- isResolved (ms_data sa) 0;
                   if done : bool then Ok (sa, Some false) else matchLoopsP f E t r save false sa
          end
      end
  end
(** 703-809; the result is the error and the should-return flag. *)
with matchOAP (fuel : nat) (E : menv) (t : tok) (x : execnode) (first : bool) (i : nat) (s : mst)
  {struct fuel} : prog (mst * bool * bool) :=
  match fuel with
  | O => OutOfFuel
  | S f =>
      (* 725-744 *)
      let body (i : nat) (s : mst) : prog (mst * bool * bool) :=
        match step (me_doc E) (ms_pos s) with
        | SErr => Ok (s, true, true)
        | SOk t1 a1 b1 =>
            let sa := setPos s b1 in
            if tok_eqb t1 (endTok t) then Ok (sa, false, true)
            else
              (* 754-789: key, value token *)
              doP kv <-
                (if isArr t then Ok (Some (indexKey i, t1, a1, sa))
                 else
                   doP key <- keyOf t1 (slice (me_doc E) a1 b1);
                   match step (me_doc E) (ms_pos sa) with
                   | SErr => Ok None
                   | SOk t2 _ b2 =>
                       if tok_eqb t2 TObjectKeyDelim then
                         match step (me_doc E) b2 with
                         | SErr => Ok None
                         | SOk t3 a3 b3 => Ok (Some (key, t3, a3, setPos sa b3))
                         end
                       else Panic
                   end);
              match kv with
              | None =>
                  (* an error of the second or third Step; the position is after
                     the last token that was read *)
                  Ok (match step (me_doc E) (ms_pos sa) with
                      | SErr => sa
                      | SOk _ _ b2 => setPos sa b2
                      end, true, true)
              | Some (key, tv, av, s2) =>
                  match lookup key (x_elems x) with
                  | Some c =>
                      doP (s3, _) <- matchExecP f E tv av c s2;
                      doP done <- isResolved (ms_data s3) 0;
                      if done : bool then Ok (s3, false, true)
                      else matchOAP f E t x false i s3
                  | None =>
                      doP (s3, _) <- skipValue E tv s2;
                      matchOAP f E t x false i s3
                  end
              end
        end in
      if first then body i s
      else
        match step (me_doc E) (ms_pos s) with
        | SErr => Ok (s, true, true)
        | SOk t1 _ b1 =>
            let sa := setPos s b1 in
            match t1 with
            | TObjectEnd | TArrayEnd => Ok (sa, false, false)
            | TEnd => Ok (sa, false, true)
            | TListDelim => body (S i) sa
            | _ => Panic
            end
        end
  end
(** 388-520. *)
with matchLoopP (fuel : nat) (E : menv) (t : tok) (l : loopnode) (s : mst) {struct fuel} : prog (mst * bool) :=
  match fuel with
  | O => OutOfFuel
  | S f =>
      if negb (isArr t) then Ok (s, false)
      else
        let k := lp_bucket l in
        doP done <- isResolved (ms_data s) k;
        if done : bool then doP (sa, _) <- skipValue E t s; Ok (sa, false)
        else
          let prev := ms_stall s in
          doP (sa, err, res) <- matchItersP f E l true (loopInit (lp_mode l)) (setStall s k);
          if err : bool then Ok (sa, true)
          else
            doP d <- resetNode (me_tree E) (ms_data sa) k;
            let s2 := setStall (setData sa d) prev in
            doP d2 <- mark (me_tree E) prev d k res;
            Ok (setData s2 d2, false)
  end
(** 425-498: the iterations; error and loop state. *)
with matchItersP (fuel : nat) (E : menv) (l : loopnode) (first : bool) (st : bool) (s : mst) {struct fuel}
  : prog (mst * bool * bool) :=
  match fuel with
  | O => OutOfFuel
  | S f =>
      let body (s : mst) : prog (mst * bool * bool) :=
        match step (me_doc E) (ms_pos s) with
        | SErr => Ok (s, true, st)
        | SOk t1 a1 b1 =>
            let sa := setPos s b1 in
            if tok_eqb t1 TArrayEnd then Ok (sa, false, st)
            else
              doP d <- resetNode (me_tree E) (ms_data sa) (lp_bucket l);
              doP (s2, err) <- matchExecP f E t1 a1 (lp_node l) (setData sa d);
              if err : bool then Ok (s2, true, st)
              else
                doP matched <- isTrue (ms_data s2) (lp_bucket l);
                let '(st', out) := loopStep (lp_mode l) st matched in
                if out : bool then doP (s3, _) <- leave E s2; Ok (s3, false, st')
                else matchItersP f E l false st' s2
        end in
      if first then body s
      else
        match step (me_doc E) (ms_pos s) with
        | SErr => Ok (s, true, st)
        | SOk t1 _ b1 =>
            let sa := setPos s b1 in
            match t1 with
            | TArrayEnd => Ok (sa, false, st)
            | TListDelim => body sa
            | _ => Panic
            end
        end
  end
(** 522-562. *)
with matchAfterP (fuel : nat) (E : menv) (af : afternode) (s : mst) {struct fuel} : prog (mst * bool) :=
  match fuel with
  | O => OutOfFuel
  | S f =>
      let save := ms_pos s in
      doP (sa, early) <- afterLoopsP f E (af_loops af) s;
      match early with
      | Some err => Ok (sa, err)
      | None =>
          doP (s2, ret) <- runOpsP E (af_ops af) None sa;
          if ret : bool then Ok (s2, false) else Ok (setPos s2 save, false)
      end
  end
(** 526-543. *)
with afterLoopsP (fuel : nat) (E : menv) (ls : list loopnode) (s : mst) {struct fuel}
  : prog (mst * option bool) :=
  match fuel with
  | O => OutOfFuel
  | S f =>
      match ls with
      | [] => Ok (s, None)
      | l :: r =>
          match lp_target l with
          | Some (DSlot (S i)) =>
              doP (start, _) <- idx (ms_slots s) i;
              let '(t, p) := match step (me_doc E) start with
                             | SErr => (TUnknown, start)
                             | SOk t _ b => (t, b)
                             end in
              doP (sa, err) <- matchLoopP f E t l (setPos s p);
              if err : bool then Ok (sa, Some true)
              else doP done <- isResolved (ms_data sa) 0;
                   if done : bool then Ok (sa, Some false) else afterLoopsP f E r sa
          | _ => Panic
          end
      end
  end.

(** fastMatcher.go:811-833 - [Match]: the new state and the result, [None] when an
    error is returned. *)
Definition matchP (fuel : nat) (o : oracles) (D : matchdef) (doc : bytes) (s : mst) : prog (mst * option bool) :=
  let si := setPos s 0 in
  match doc with
  | [] => Ok (si, Some false)
  | _ =>
      match step doc 0 with
      | SErr => Ok (si, None)
      | SOk t a b =>
          match d_heap D with
          | None =>
              (* a nil ParseNode is dereferenced by every kind of value *)
              Panic
          | Some h =>
              let E := MEnv o h (d_tree D) doc in
              doP (sa, err) <- matchExecP fuel E t a 0 (setPos si b);
              if err : bool then Ok (sa, None)
              else
                doP d <- resolveAll (d_tree D) (ms_stall sa) (ms_data sa);
                doP r <- isTrue d 0;
                Ok (setData sa d, Some r)
          end
      end
  end.


(** ** Running at the same time *)

(** The arrays allocated so far, each with its whole capacity, and the buffer's slice header:
    which array, and the length.  At start the buffer is nil (no capacity). *)
Record mem := { m_arrays : list bytes; m_hdr : nat * nat }.
Definition mem0 : mem := {| m_arrays := [[]]; m_hdr := (0, 0) |}.
Definition arr (m : mem) (i : nat) : bytes := nth i (m_arrays m) [].
(** What a slice shows. *)
Definition view (m : mem) (h : nat * nat) : bytes := firstn (snd h) (arr m (fst h)).
(** append: into the array if there is room, else into a new one with some room to spare. *)
Definition append_ (spare : nat -> nat) (m : mem) (h : nat * nat) (t : bytes) : mem * (nat * nat) :=
  let n := snd h + length t in
  if n <=? length (arr m (fst h)) then
    ({| m_arrays := upd (m_arrays m) (fst h) (view m h ++ t ++ skipn n (arr m (fst h))); m_hdr := m_hdr m |}, (fst h, n))
  else ({| m_arrays := m_arrays m ++ [view m h ++ t ++ repeat 0%N (spare n)]; m_hdr := m_hdr m |}, (length (m_arrays m), n)).
(** Where a goroutine stands: before a conversion (or finished), or inside one. *)
Inductive thread (A : Type) :=
| Run (p : prog A)
| Cut (t : bytes) (k : bytes -> prog A)
| Put (h : nat * nat) (k : bytes -> prog A)
| Get (k : bytes -> prog A)
| Read (h : nat * nat) (k : bytes -> prog A).
Arguments Run {A}. Arguments Cut {A}. Arguments Put {A}. Arguments Get {A}. Arguments Read {A}.
(** fastval.go:435-437 (439-441, 443-445): empty the buffer; append; store the new header; take the
    buffer as the value; and fastval.go:587: copy the value's bytes out. *)
Definition tick {A : Type} (spare : nat -> nat) (m : mem) (th : thread A) : mem * thread A :=
  match th with
  | Run (Done r) => (m, th)
  | Run (Conv t k) => ({| m_arrays := m_arrays m; m_hdr := (fst (m_hdr m), 0) |}, Cut t k)
  | Cut t k => let '(m', h) := append_ spare m (m_hdr m) t in (m', Put h k)
  | Put h k => ({| m_arrays := m_arrays m; m_hdr := h |}, Get k)
  | Get k => (m, Read (m_hdr m) k)
  | Read h k => (m, Run (k (view m h)))
  end.
(** A schedule says whose turn it is. *)
Fixpoint schedule {A : Type} (spare : nat -> nat) (turns : list nat) (m : mem) (ths : list (thread A)) : mem * list (thread A) :=
  match turns with
  | [] => (m, ths)
  | i :: r =>
      match nth_error ths i with
      | None => schedule spare r m ths
      | Some th => let '(m', th') := tick spare m th in schedule spare r m' (upd ths i th')
      end
  end.
