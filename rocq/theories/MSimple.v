(** Model of simpleParser.go: the older text syntax of filters.

    Simplifications: error values are not told apart except the four that control the
    parser; the tree nodes and the data nodes (always appended together) are one list;
    the index -1 is [None]; the text a field node carries (used in messages only) is
    empty; the nodes' [lastParserDataNode], [lastBinTreeDataNode], [lastFieldIndex] and
    the last seeker, which are read only where they have just been written, are not
    kept.  The word table of [handleMultiTokens] and the function table are Go maps,
    visited in any order; the result does not depend on it. *)
From Coq Require Import String.
From Verif Require Import Base MTokenizer MLit MFastVal MMath MBinTree SEvents MExpr MExprJson MText.
From Coq Require Import List NArith ZArith Arith Lia Bool.
Import ListNotations.
Open Scope nat_scope.

(** ** strings and regexp *)
Fixpoint hasPrefix (s p : bytes) : bool :=
  match p, s with [], _ => true | a :: p', b :: s' => N.eqb a b && hasPrefix s' p' | _ :: _, [] => false end.
Definition trimPrefix (s p : bytes) : bytes := if hasPrefix s p then skipn (length p) s else s.
Definition hasSuffix (s p : bytes) : bool := hasPrefix (rev s) (rev p).
Definition trimSuffix (s p : bytes) : bytes := if hasSuffix s p then firstn (length s - length p) s else s.
Definition hasByte (s : bytes) (c : N) : bool := existsb (N.eqb c) s.
(** Everything before and after the first occurrence. *)
Fixpoint cut (s d : bytes) : option (bytes * bytes) :=
  if hasPrefix s d then Some ([], skipn (length d) s)
  else match s with [] => None | c :: r => match cut r d with Some (a, b) => Some (c :: a, b) | None => None end end.
Fixpoint dropSet (s set : bytes) : bytes := match s with [] => [] | c :: r => if hasByte set c then dropSet r set else s end.
(** strings.Trim *)
Definition trimSet (s set : bytes) : bytes := rev (dropSet (rev (dropSet s set)) set).

(** unicode.IsSpace at the start of the text: the width of the character, 0 if it is not
    a space.  (No byte of a longer character can start one of these, so looking at the
    bytes is exact, also in invalid UTF-8.) *)
Definition spaceWidth (s : bytes) : nat :=
  match s with
  | [] => 0
  | c :: r =>
      if existsb (N.eqb c) [9; 10; 11; 12; 13; 32]%N then 1
      else match r with
           | [] => 0
           | d :: r2 =>
               if N.eqb c 194 then (if N.eqb d 133 || N.eqb d 160 then 2 else 0)
               else match r2 with
                    | [] => 0
                    | e :: _ =>
                        if (N.eqb c 225 && N.eqb d 154 && N.eqb e 128)
                           || (N.eqb c 226 && N.eqb d 128 && ((N.leb 128 e && N.leb e 138) || N.eqb e 168 || N.eqb e 169 || N.eqb e 175))
                           || (N.eqb c 226 && N.eqb d 129 && N.eqb e 159)
                           || (N.eqb c 227 && N.eqb d 128 && N.eqb e 128)
                        then 3 else 0
                    end
           end
  end.
(** strings.Fields: [skip] bytes of a space still to pass, [cur] the word so far. *)
Fixpoint fieldsFrom (skip : nat) (cur s : bytes) : list bytes :=
  match s with
  | [] => match cur with [] => [] | _ => [cur] end
  | c :: r =>
      match skip with
      | S k => fieldsFrom k cur r
      | O => match spaceWidth s with
             | O => fieldsFrom 0 (cur ++ [c]) r
             | S k => match cur with [] => fieldsFrom k [] r | _ => cur :: fieldsFrom k [] r end
             end
      end
  end.
Definition fields (s : bytes) : list bytes := fieldsFrom 0 [] s.

(** simpleParser.go:46-47: quoted with the given quote (words contain no newline). *)
Definition quotedBy (q : N) (s : bytes) : bool := (2 <=? length s) && hasPrefix s [q] && hasSuffix s [q].
Definition isDigit (c : N) : bool := (N.leb 48 c && N.leb c 57)%N.
(** simpleParser.go:50: a number, an optional minus sign, no leading zeros, an optional fraction. *)
Fixpoint digitsThen (s : bytes) : bytes := match s with c :: r => if isDigit c then digitsThen r else s | [] => [] end.
Definition isNum (s : bytes) : bool :=
  let u := match s with c :: r => if N.eqb c 45 then r else s | [] => [] end in
  match u with
  | [] => false
  | c :: r =>
      let tail := if N.eqb c 48 then Some r else if isDigit c then Some (digitsThen r) else None in
      match tail with
      | None => false
      | Some [] => true
      | Some (d :: f) => N.eqb d 46 && (match f with [] => false | _ => true end) && forallb isDigit f
      end
  end.
(** simpleParser.go:52: digits after an optional minus sign. *)
Definition isIntText (s : bytes) : bool :=
  let u := match s with c :: r => if N.eqb c 45 then r else s | [] => [] end in
  (match u with [] => false | _ => true end) && forallb isDigit u.

(** simpleParser.go:507-516 - [valueCheck]. *)
Inductive vcheck := VQuoted (q : N) | VNumber | VNot.
Definition valueCheck (s : bytes) : vcheck :=
  if quotedBy 34 s then VQuoted 34 else if quotedBy 39 s then VQuoted 39 else if isNum s then VNumber else VNot.

(** ** Functions: simpleParser.go:61-124, 321-332 *)
Inductive farity := FA0 | FA1 | FA2.
(** Written name, translated name. *)
Definition builtins : list (bytes * farity * bytes) :=
  map (fun p => (s2b (fst (fst p)), snd (fst p), s2b (snd p)))
    [("ABS", FA1, "mathAbs"); ("ACOS", FA1, "mathAcos"); ("ASIN", FA1, "mathAsin"); ("ATAN", FA1, "mathAtan"); ("CEIL", FA1, "mathCeil");
     ("COS", FA1, "mathCos"); ("DATE", FA1, "date"); ("DEGREES", FA1, "mathDegrees"); ("EXP", FA1, "mathExp"); ("FLOOR", FA1, "mathFloor");
     ("LOG", FA1, "mathLog"); ("LN", FA1, "mathLn"); ("SIN", FA1, "mathSin"); ("TAN", FA1, "mathTan"); ("RADIANS", FA1, "mathRadians");
     ("ROUND", FA1, "mathRound"); ("SQRT", FA1, "mathSqrt"); ("PI", FA0, "mathPi"); ("E", FA0, "mathE"); ("ATAN2", FA2, "mathAtan2"); ("POW", FA2, "mathPow")]%string.
(** The last comma with something after it: the expression for two arguments is greedy, and
    words contain no spaces. *)
Fixpoint lastComma (before s : bytes) : option (bytes * bytes) :=
  match s with
  | [] => None
  | c :: r =>
      match lastComma (before ++ [c]) r with
      | Some x => Some x
      | None => if N.eqb c 44 then match before, r with _ :: _, _ :: _ => Some (before, r) | _, _ => None end else None
      end
  end.
(** The arguments, if the word is a call of the function. *)
Definition callArgs (name : bytes) (a : farity) (s : bytes) : option (list bytes) :=
  if hasPrefix s (name ++ [40%N]) && hasSuffix s [41%N] && (length name + 2 <=? length s) then
    let body := firstn (length s - length name - 2) (skipn (S (length name)) s) in
    match a with
    | FA0 => match body with [] => Some [] | _ => None end
    | FA1 => match body with [] => None | _ => Some [body] end
    | FA2 => match lastComma [] body with Some (x, y) => Some [x; y] | None => None end
    end
  else None.
(** simpleParser.go:479-486 - [tokenIsBuiltInFuncType]: names differ before the parenthesis, so at
    most one entry matches. *)
Definition funcKey (s : bytes) : option (bytes * farity * bytes) :=
  find (fun p => match callArgs (fst (fst p)) (snd (fst p)) s with Some _ => true | None => false end) builtins.

(** ** Operators: simpleParser.go:396-477 *)
Definition chainOps : list bytes := map s2b ["&&"; "AND"; "||"; "OR"]%string.
Definition compareOps : list bytes := map s2b [">="; "<"; "<="; ">"]%string.
Definition equalOps : list bytes := map s2b ["=="; "="; "!="]%string.
Definition likeOps : list bytes := map s2b ["=~"; "LIKE"; "NOT_LIKE"]%string.
Definition onlyOps : list bytes := map s2b ["EXISTS"; "IS_MISSING"; "IS_NULL"; "IS_NOT_NULL"]%string.
Definition isOneOf (s : bytes) (l : list bytes) : bool := existsb (bytes_eqb s) l.
Definition isOp (s : bytes) : bool := isOneOf s (chainOps ++ equalOps ++ compareOps ++ likeOps ++ onlyOps).
(** simpleParser.go:428-440 - [replaceOpTokenIfNecessary]. *)
Definition normalOp (s : bytes) : bytes :=
  if bytes_eqb s (s2b "=") then s2b "==" else if bytes_eqb s (s2b "OR") then s2b "||"
  else if bytes_eqb s (s2b "AND") then s2b "&&" else if bytes_eqb s (s2b "LIKE") then s2b "=~" else s.
(** simpleParser.go:418-426: words, and the operator made of them. *)
Definition multiWords : list (list bytes * bytes) :=
  map (fun p => (map s2b (fst p), s2b (snd p)))
    [(["NOT"; "LIKE"], "NOT_LIKE"); (["IS"; "NULL"], "IS_NULL"); (["IS"; "NOT"; "NULL"], "IS_NOT_NULL"); (["IS"; "MISSING"], "IS_MISSING")]%string.

(** simpleParser.go:238-258 - [seekInternal]: from the word's current start, try longer
    and longer pieces ([k] bytes left after the first [n]). *)
Fixpoint seekAt (k n : nat) (found : bool) (s : bytes) : option bytes :=
  if isOp (firstn n s) then
    match k with O => Some (firstn n s) | S k' => seekAt k' (S n) true s end
  else if found then Some (firstn (n - 1) s)
  else match k with O => None | S k' => seekAt k' (S n) false s end.
(** simpleParser.go:223-232 - [Seek]: the operator found. *)
Fixpoint seekOp (s : bytes) : option bytes :=
  match s with
  | [] => None
  | _ :: r => match seekAt (length s) 0 false s with Some op => Some op | None => seekOp r end
  end.
(** utils.go:23-45 - [StringSplitFirstInst]. *)
Definition splitFirst (s d : bytes) : list bytes :=
  if bytes_eqb s d then [d]
  else match cut s d with
       | None => [s]
       | Some ([], b) => [d; b]
       | Some (a, []) => [a; d]
       | Some (a, b) => [trimSet (a ++ d) d; d; b]
       end.

(** ** Fields: simpleParser.go:858-981 - [checkAndParseField] *)
Inductive fmode := FPlain0 | FTick | FIndex.
Record fstate := { f_mode : fmode; f_begin : nat; f_skip : bool; f_unf : list bytes; f_out : list bytes }.
Definition fAppend (s : fstate) (x : bytes) : list bytes := if f_skip s then f_out s else f_out s ++ [x].
Definition joinSpace (l : list bytes) : bytes :=
  match l with [] => [] | a :: r => a ++ flat_map (fun x => 32%N :: x) r end.
(** 878-953: one word; [None] is an error. *)
Fixpoint fieldLoop (tok rest : bytes) (pos : nat) (s : fstate) : option fstate :=
  match rest with
  | [] => Some s
  | c :: r =>
      let piece := slice tok (f_begin s) pos in
      match f_mode s with
      | FPlain0 =>
          if N.eqb c 46 then fieldLoop tok r (S pos) {| f_mode := FPlain0; f_begin := S pos; f_skip := false; f_unf := f_unf s; f_out := fAppend s piece |}
          else if N.eqb c 96 then fieldLoop tok r (S pos) {| f_mode := FTick; f_begin := S pos; f_skip := f_skip s; f_unf := f_unf s; f_out := f_out s |}
          else if N.eqb c 91 then fieldLoop tok r (S pos) {| f_mode := FIndex; f_begin := pos; f_skip := false; f_unf := f_unf s; f_out := fAppend s piece |}
          else fieldLoop tok r (S pos) s
      | FTick =>
          if N.eqb c 96 then
            if f_begin s =? pos then None
            else
              let skip := match r with [] => true | d :: _ => if N.eqb d 46 || N.eqb d 91 then true else f_skip s end in
              let whole := match f_unf s with [] => piece | _ => joinSpace (f_unf s ++ [piece]) end in
              fieldLoop tok r (S pos) {| f_mode := FPlain0; f_begin := f_begin s; f_skip := skip; f_unf := []; f_out := f_out s ++ [whole] |}
          else fieldLoop tok r (S pos) s
      | FIndex =>
          if pos =? f_begin s then fieldLoop tok r (S pos) s
          else if (pos =? S (f_begin s)) && N.eqb c 48 then None
          else if negb (isDigit c) && negb (N.eqb c 93) then None
          else if N.eqb c 93 then
            if pos =? S (f_begin s) then None
            else
              let skip := match r with [] => true | d :: _ => N.eqb d 91 end in
              fieldLoop tok r (S pos)
                {| f_mode := FPlain0; f_begin := f_begin s; f_skip := skip; f_unf := f_unf s; f_out := fAppend s (slice tok (f_begin s) (S pos)) |}
          else fieldLoop tok r (S pos) s
      end
  end.
(** 874-980: further words while a back-quote is open.  Result: the path and the words
    after the last one used. *)
Fixpoint fieldWords (s : fstate) (toks : list bytes) : option (list bytes * list bytes) :=
  match toks with
  | [] => None
  | tok :: r =>
      match fieldLoop tok tok 0 {| f_mode := f_mode s; f_begin := 0; f_skip := f_skip s; f_unf := f_unf s; f_out := f_out s |} with
      | None => None
      | Some s' =>
          let piece := slice tok (f_begin s') (length tok) in
          match f_mode s' with
          | FPlain0 => Some (fAppend s' piece, r)
          | FIndex => None
          | FTick => fieldWords {| f_mode := FTick; f_begin := 0; f_skip := f_skip s'; f_unf := f_unf s' ++ [piece]; f_out := f_out s' |} r
          end
      end
  end.
Definition parseField (toks : list bytes) : option (list bytes * list bytes) :=
  match toks with
  | [] :: _ => None
  | _ => fieldWords {| f_mode := FPlain0; f_begin := 0; f_skip := false; f_unf := []; f_out := [] |} toks
  end.

(** ** Calls: simpleParser.go:198-207, 1688-1737 *)
Inductive farg := FStr (s : bytes) | FIdx (n : nat) | FPath (p : list bytes).
Record fhelper := { h_args : list (list farg); h_lvl : nat }.
Definition hPush (h : fhelper) (i : nat) (a : farg) : fhelper :=
  {| h_args := upd (h_args h) i (nth i (h_args h) [] ++ [a]); h_lvl := h_lvl h |}.
Section Resolve.
  Variable o : oracles.
  (** The loop over the arguments; [true] is an error.  An argument that is itself a call
      is resolved from the first argument's text (1708) and its error is dropped. *)
  Fixpoint resolveArgs (resolve : fhelper -> bytes -> bytes -> option (fhelper * bool)) (k : nat) (key first : bytes) (fx : nat)
    (l : list bytes) (h : fhelper) : option (fhelper * bool) :=
    match k with
    | O => None
    | S k' =>
        match l with
        | [] => Some (h, false)
        | s :: r =>
            match funcKey s with
            | Some (key', _, _) =>
                let lvl := length (h_args h) in
                match resolve {| h_args := h_args h ++ [[]]; h_lvl := lvl |} first key' with
                | None => None
                | Some (h', _) => resolveArgs resolve k' key first fx r (hPush h' fx (FIdx lvl))
                end
            | None =>
                match valueCheck s with
                | VQuoted q =>
                    let v := trimSuffix (trimPrefix s [q]) [q] in
                    let h' := hPush h fx (FStr v) in
                    if bytes_eqb key (s2b "DATE") && negb (validTime o v) then Some (h', true)
                    else resolveArgs resolve k' key first fx r h'
                | VNumber => resolveArgs resolve k' key first fx r (hPush h fx (FStr s))
                | VNot =>
                    match parseField l with
                    | None => Some (h, true)
                    | Some (p, r') => resolveArgs resolve k' key first fx r' (hPush h fx (FPath p))
                    end
                end
            end
        end
    end.
  (** 1692-1731; [None] is out of fuel. *)
  Fixpoint resolve (fuel : nat) (h : fhelper) (tok key : bytes) : option (fhelper * bool) :=
    match fuel with
    | O => None
    | S f =>
        match find (fun p => bytes_eqb (fst (fst p)) key) builtins with
        | None => Some (h, true)
        | Some (_, a, _) =>
            let h1 := hPush h (h_lvl h) (FStr key) in
            let subs := match callArgs key a tok with Some l => l | None => [] end in
            resolveArgs (resolve f) (S (length subs)) key (hd [] subs) (h_lvl h) subs h1
        end
    end.
End Resolve.

(** ** Parser state: simpleParser.go:126-191, 261-301, 336-350 *)
Inductive ttype := TkField | TkFunc | TkOp | TkValue | TkRegex | TkPcre | TkParen | TkEndParen | TkTrue | TkFalse | TkInvalid.
Inductive pmode := MdField | MdOp | MdValue | MdChain.
Inductive opctx := NoOp | ChainOp | CompareOp | MatchOp | NoFieldOp.
Record subctx := {
  sc_mode : pmode; sc_opctx : opctx; sc_bool : bool;
  sc_sub : option nat; sc_field : option nat; sc_op : option nat; sc_val : option nat;
  sc_func : option fhelper; sc_one : bool
}.
Record pnode := { pn_type : ttype; pn_data : bytes; pn_parent : option nat; pn_left : option nat; pn_right : option nat }.
Record ctx := {
  c_toks : list bytes; c_cur : nat; c_advOnly : bool; c_lastField : list bytes; c_depth : nat;
  c_sub : subctx; c_short : bool; c_tree : list pnode; c_head : option nat;
  c_paths : list (nat * list bytes); c_funcs : list (nat * fhelper)
}.
(** Which error, if any. *)
Inductive serr := SNil | SNoMore | SOneDone | SNewCtx | SOneNewCtx | SOther.

Definition newSub (one : bool) : subctx :=
  {| sc_mode := MdField; sc_opctx := NoOp; sc_bool := false; sc_sub := None; sc_field := None; sc_op := None; sc_val := None; sc_func := None; sc_one := one |}.
Definition withSub (c : ctx) (s : subctx) : ctx :=
  {| c_toks := c_toks c; c_cur := c_cur c; c_advOnly := c_advOnly c; c_lastField := c_lastField c; c_depth := c_depth c; c_sub := s; c_short := c_short c;
     c_tree := c_tree c; c_head := c_head c; c_paths := c_paths c; c_funcs := c_funcs c |}.
Definition withToks (c : ctx) (l : list bytes) (i : nat) : ctx :=
  {| c_toks := l; c_cur := i; c_advOnly := c_advOnly c; c_lastField := c_lastField c; c_depth := c_depth c; c_sub := c_sub c; c_short := c_short c;
     c_tree := c_tree c; c_head := c_head c; c_paths := c_paths c; c_funcs := c_funcs c |}.
Definition withAdv (c : ctx) (b : bool) : ctx :=
  {| c_toks := c_toks c; c_cur := c_cur c; c_advOnly := b; c_lastField := c_lastField c; c_depth := c_depth c; c_sub := c_sub c; c_short := c_short c;
     c_tree := c_tree c; c_head := c_head c; c_paths := c_paths c; c_funcs := c_funcs c |}.
Definition withDepth (c : ctx) (d : nat) : ctx :=
  {| c_toks := c_toks c; c_cur := c_cur c; c_advOnly := c_advOnly c; c_lastField := c_lastField c; c_depth := d; c_sub := c_sub c; c_short := c_short c;
     c_tree := c_tree c; c_head := c_head c; c_paths := c_paths c; c_funcs := c_funcs c |}.
Definition withField (c : ctx) (p : list bytes) : ctx :=
  {| c_toks := c_toks c; c_cur := c_cur c; c_advOnly := c_advOnly c; c_lastField := p; c_depth := c_depth c; c_sub := c_sub c; c_short := c_short c;
     c_tree := c_tree c; c_head := c_head c; c_paths := c_paths c; c_funcs := c_funcs c |}.
Definition withTree (c : ctx) (t : list pnode) (h : option nat) : ctx :=
  {| c_toks := c_toks c; c_cur := c_cur c; c_advOnly := c_advOnly c; c_lastField := c_lastField c; c_depth := c_depth c; c_sub := c_sub c; c_short := c_short c;
     c_tree := t; c_head := h; c_paths := c_paths c; c_funcs := c_funcs c |}.
Definition withOuts (c : ctx) (p : list (nat * list bytes)) (f : list (nat * fhelper)) : ctx :=
  {| c_toks := c_toks c; c_cur := c_cur c; c_advOnly := c_advOnly c; c_lastField := c_lastField c; c_depth := c_depth c; c_sub := c_sub c; c_short := c_short c;
     c_tree := c_tree c; c_head := c_head c; c_paths := p; c_funcs := f |}.

Definition sMode (s : subctx) (m : pmode) : subctx :=
  {| sc_mode := m; sc_opctx := sc_opctx s; sc_bool := sc_bool s; sc_sub := sc_sub s; sc_field := sc_field s; sc_op := sc_op s; sc_val := sc_val s; sc_func := sc_func s; sc_one := sc_one s |}.
Definition sOpctx (s : subctx) (x : opctx) : subctx :=
  {| sc_mode := sc_mode s; sc_opctx := x; sc_bool := sc_bool s; sc_sub := sc_sub s; sc_field := sc_field s; sc_op := sc_op s; sc_val := sc_val s; sc_func := sc_func s; sc_one := sc_one s |}.
Definition sBool (s : subctx) (b : bool) : subctx :=
  {| sc_mode := sc_mode s; sc_opctx := sc_opctx s; sc_bool := b; sc_sub := sc_sub s; sc_field := sc_field s; sc_op := sc_op s; sc_val := sc_val s; sc_func := sc_func s; sc_one := sc_one s |}.
Definition sFunc (s : subctx) (f : option fhelper) : subctx :=
  {| sc_mode := sc_mode s; sc_opctx := sc_opctx s; sc_bool := sc_bool s; sc_sub := sc_sub s; sc_field := sc_field s; sc_op := sc_op s; sc_val := sc_val s; sc_func := f; sc_one := sc_one s |}.
Definition sIdx (s : subctx) (sub field op val : option nat) : subctx :=
  {| sc_mode := sc_mode s; sc_opctx := sc_opctx s; sc_bool := sc_bool s; sc_sub := sub; sc_field := field; sc_op := op; sc_val := val; sc_func := sc_func s; sc_one := sc_one s |}.

(** simpleParser.go:518-564 - [advanceToken]. *)
Definition advance (c : ctx) : ctx * serr :=
  let c := withToks c (c_toks c) (S (c_cur c)) in
  if c_advOnly c then (withAdv c false, SNil)
  else
    let s := sFunc (c_sub c) None in
    match sc_mode s with
    | MdField => (withSub c (sMode s MdOp), SNil)
    | MdOp =>
        match sc_opctx s with
        | NoFieldOp => (withSub c (sMode s MdChain), SNil)
        | ChainOp => (withSub c (sBool (sMode s MdField) false), SNil)
        | _ => (withSub c (sMode s MdValue), SNil)
        end
    | MdValue =>
        if sc_one s then (withSub (withToks c (c_toks c) (c_cur c - 1)) s, SOneDone)
        else (withSub c (sOpctx (sMode s MdChain) NoOp), SNil)
    | MdChain => (withSub c (sBool (sMode s MdField) false), SNil)
    end.

(** simpleParser.go:607-618 - [checkAndMarkDetailedOpToken]. *)
Definition markOp (c : ctx) (t : bytes) : ctx :=
  let s := c_sub c in
  if isOneOf t chainOps && (match sc_sub s with Some _ => true | None => false end) then withSub c (sOpctx s ChainOp)
  else if isOneOf t compareOps then withSub c (sOpctx s CompareOp)
  else if isOneOf t likeOps then withSub c (sOpctx s MatchOp)
  else if isOneOf t onlyOps then withSub c (sOpctx s NoFieldOp)
  else c.

(** simpleParser.go:620-677 - [checkIfTokenIsPotentiallyOpType] and [handleMultiTokens]: word by word, drop the operators that
    do not fit; done at the last word of the only one left. *)
Fixpoint multiSeek (valid : list (list bytes * bytes)) (i : nat) (toks : list bytes) : option (nat * bytes) :=
  match toks with
  | [] => None
  | t :: r =>
      let v := filter (fun p => match nth_error (fst p) i with Some w => bytes_eqb w t | None => false end) valid in
      match v with
      | [(w, op)] => if i =? length w - 1 then Some (i, op) else multiSeek v (S i) r
      | _ => multiSeek v (S i) r
      end
  end.

(** simpleParser.go:704-710 - [getTokenValueSubtype]. *)
Definition valueKind (s : subctx) : ttype := match sc_opctx s with MatchOp => TkRegex | _ => TkValue end.

(** simpleParser.go:566-584, 1240-1249: insert words before / after the current one. *)
Definition putToks (c : ctx) (l : list bytes) : ctx :=
  withToks c (firstn (c_cur c) (c_toks c) ++ l ++ skipn (S (c_cur c)) (c_toks c)) (c_cur c).
Fixpoint countSuffix (r : bytes) (p : N) : nat := match r with c :: r' => if N.eqb c p then S (countSuffix r' p) else 0 | [] => 0 end.
Definition splitSuffix (t : bytes) (p : N) : list bytes :=
  let n := countSuffix (rev t) p in firstn (length t - n) t :: repeat [p] n.
(** simpleParser.go:586-597 - [handleCloseParenBookKeeping]. *)
Definition closeParen (c : ctx) : ctx * serr :=
  match c_depth c with
  | O => (c, SOther)
  | S d =>
      let s := c_sub c in
      (withDepth c d, match sc_op s, sc_bool s, sc_mode s with None, false, MdField => SNil | None, false, _ => SOther | _, _, _ => SNil end)
  end.
(** simpleParser.go:599-604 - [handleOpenParenBookKeeping]. *)
Definition openParen (c : ctx) : ctx * serr := advance (withAdv (withDepth c (S (c_depth c))) true).

(** simpleParser.go:776-783 - [tokenIsUnfinishedValueType]. *)
Definition unfinishedQuote (t : bytes) : option N :=
  if hasPrefix t [34%N] && negb (hasSuffix t [34%N]) then Some 34%N
  else if hasPrefix t [39%N] && negb (hasSuffix t [39%N]) then Some 39%N else None.

Section Simple.
  Variable o : oracles.

  (** simpleParser.go:785-812 - [getUnfinishedValueHelper], from the second word on. *)
  Fixpoint unfinished (fuel : nat) (c : ctx) (q : N) (out : bytes) : outcome (ctx * bytes * ttype * serr) :=
    match fuel with
    | O => OutOfFuel
    | S f =>
        match nth_error (c_toks c) (c_cur c) with
        | None => Ok (c, [], TkInvalid, SOther)
        | Some t0 =>
            let c := if negb (c_depth c =? 0) && hasSuffix t0 [41%N] then putToks c (splitSuffix t0 41%N) else c in
            let t := nth (c_cur c) (c_toks c) [] in
            if hasSuffix t [q] then Ok (c, out ++ [32%N] ++ trimSuffix t [q], valueKind (c_sub c), SNil)
            else unfinished f (withToks c (c_toks c) (S (c_cur c))) q (out ++ [32%N] ++ t)
        end
    end.

  (** simpleParser.go:712-730 - [getValueTokenHelper]. *)
  Definition valueToken (c : ctx) (t : bytes) (q : N) : ctx * bytes * ttype * serr :=
    let v := trimSuffix (trimPrefix t [q]) [q] in
    match valueKind (c_sub c) with
    | TkValue => (c, v, TkValue, SNil)
    | k => if o_regexCompiles o v then (c, v, k, SNil)
           else if tokenIsPcre v then (c, v, TkPcre, SNil) else (c, v, TkRegex, SOther)
    end.

  (** simpleParser.go:825-834 - [getFuncFieldTokenHelper]. *)
  Definition funcToken (fuel : nat) (c : ctx) (t key : bytes) : outcome (ctx * bytes * ttype * serr) :=
    match sc_mode (c_sub c) with
    | MdField | MdValue =>
        match resolve o fuel {| h_args := [[]]; h_lvl := 0 |} t key with
        | None => OutOfFuel
        | Some (h, e) => Ok (withSub c (sFunc (c_sub c) (Some {| h_args := h_args h; h_lvl := 0 |})), t, TkFunc, if e then SOther else SNil)
        end
    | _ => Ok (c, t, TkFunc, SOther)
    end.

  (** simpleParser.go:837-856 - [getTokenFieldTokenHelper]. *)
  Definition fieldToken (c : ctx) (t : bytes) : ctx * bytes * ttype * serr :=
    if hasPrefix t [46%N] || hasSuffix t [46%N] then (c, t, TkField, SOther)
    else match parseField (skipn (c_cur c) (c_toks c)) with
         | None => (c, [], TkField, SOther)
         | Some (p, r) => (withField (withToks c (c_toks c) (length (c_toks c) - length r - 1)) p, [], TkField, SNil)
         end.

  (** simpleParser.go:745-774 - [getCurrentToken], with 679-702 [getCurrentTokenParenHelper],
      733-743 [getTrueFalseValue], 1229-1250 [checkPotentialSeparation] and [getAndSeparateToken]. *)
  Fixpoint getToken (fuel : nat) (c : ctx) : outcome (ctx * bytes * ttype * serr) :=
    match fuel with
    | O => OutOfFuel
    | S f =>
        match nth_error (c_toks c) (c_cur c) with
        | None => Ok (c, [], TkInvalid, SNoMore)
        | Some t =>
            let separate (op : bytes) := getToken f (putToks c (splitFirst t op)) in
            if bytes_eqb t (s2b "NOT") || bytes_eqb t (s2b "IS") then
              match multiSeek multiWords 0 (skipn (c_cur c) (c_toks c)) with
              | Some (i, op) => Ok (markOp (withToks c (c_toks c) (c_cur c + i)) op, op, TkOp, SNil)
              | None => Ok (c, t, TkInvalid, SOther)
              end
            else if isOp t then Ok (markOp c (normalOp t), normalOp t, TkOp, SNil)
            else match valueCheck t, sc_mode (c_sub c) with
            | VQuoted q, MdValue => Ok (valueToken c t q)
            | VNumber, _ => Ok (c, t, valueKind (c_sub c), SNil)
            | _, md =>
                if bytes_eqb t (s2b "true") then Ok (withSub c (sBool (c_sub c) true), t, TkTrue, SNil)
                else if bytes_eqb t (s2b "false") then Ok (withSub c (sBool (c_sub c) true), t, TkFalse, SNil)
                else match funcKey t with
                | Some (key, _, _) => funcToken f c t key
                | None =>
                    if hasByte t 40%N || hasByte t 41%N then
                      if negb (bytes_eqb t [40%N]) && hasPrefix t [40%N] then getToken f (putToks c [[40%N]; trimPrefix t [40%N]])
                      else if negb (bytes_eqb t [40%N]) && hasSuffix t [40%N] then getToken f (putToks c (splitSuffix t 40%N))
                      else if negb (bytes_eqb t [41%N]) && hasSuffix t [41%N] then getToken f (putToks c (splitSuffix t 41%N))
                      else if negb (bytes_eqb t [41%N]) && hasPrefix t [41%N] then
                        let c := putToks c [[41%N]; trimPrefix t [41%N]] in
                        let (c, e) := closeParen c in Ok (c, [41%N], TkEndParen, e)
                      else if bytes_eqb t [41%N] then let (c, e) := closeParen c in Ok (c, t, TkEndParen, e)
                      else if bytes_eqb t [40%N] then let (c, e) := openParen c in Ok (c, t, TkParen, e)
                      else match seekOp t with
                           | Some op => separate op
                           | None => Ok (c, t, TkInvalid, SOther)
                           end
                    else match unfinishedQuote t, md with
                    | Some q, MdValue => unfinished f (withToks c (c_toks c) (S (c_cur c))) q (trimPrefix t [q])
                    | _, _ =>
                        match seekOp t with
                        | Some op => separate op
                        | None => Ok (fieldToken c t)
                        end
                    end
                end
            end
        end
    end.

  (** simpleParser.go:983-1037 - [getErrorNeedToStart...] and [checkTokenTypeWithinContext]. *)
  Definition checkType (c : ctx) (ty : ttype) : ctx * serr :=
    let s := c_sub c in
    let oneNew := if c_short c then SNewCtx else SOneNewCtx in
    let value :=
      match ty with
      | TkField | TkFunc => match sc_opctx s with ChainOp => oneNew | _ => SNil end
      | TkTrue | TkFalse => match sc_opctx s with CompareOp | MatchOp => SOther | _ => SNil end
      | TkValue | TkRegex | TkPcre => SNil
      | _ => SOther
      end in
    match sc_mode s with
    | MdOp | MdChain =>
        match ty with
        | TkEndParen => (withAdv c true, SOneDone)
        | TkOp => (c, match sc_mode s, sc_opctx s with MdOp, _ => SNil | _, ChainOp => SNil | _, _ => SOther end)
        | _ => (c, SOther)
        end
    | MdField =>
        match ty with
        | TkParen => (c, SNewCtx)
        | TkField | TkFunc | TkTrue | TkFalse => (c, value)
        | _ => (c, SOther)
        end
    | MdValue => (c, value)
    end.

  Definition setNode (t : list pnode) (i : nat) (f : pnode -> pnode) : outcome (list pnode) :=
    match nth_error t i with Some n => Ok (upd t i (f n)) | None => Panic end.
  Definition setNodeAt (t : list pnode) (i : option nat) (f : pnode -> pnode) : outcome (list pnode) :=
    match i with Some j => setNode t j f | None => Panic end.
  Definition nParent (p : option nat) (n : pnode) : pnode := {| pn_type := pn_type n; pn_data := pn_data n; pn_parent := p; pn_left := pn_left n; pn_right := pn_right n |}.
  Definition nLeft (p : option nat) (n : pnode) : pnode := {| pn_type := pn_type n; pn_data := pn_data n; pn_parent := pn_parent n; pn_left := p; pn_right := pn_right n |}.
  Definition nRight (p : option nat) (n : pnode) : pnode := {| pn_type := pn_type n; pn_data := pn_data n; pn_parent := pn_parent n; pn_left := pn_left n; pn_right := p |}.

  (** simpleParser.go:1039-1100 - [insertNode]. *)
  Definition insertNode (c : ctx) (ty : ttype) (data : bytes) : outcome ctx :=
    let s := c_sub c in
    let i := length (c_tree c) in
    let t := c_tree c ++ [{| pn_type := ty; pn_data := data; pn_parent := None; pn_left := None; pn_right := None |}] in
    let funcs := match sc_func s with Some h => (i, h) :: c_funcs c | None => c_funcs c end in
    match sc_mode s with
    | MdField =>
        Ok (withOuts (withTree (withSub c (sIdx s (Some i) (Some i) (sc_op s) (sc_val s))) t (c_head c)) ((i, c_lastField c) :: c_paths c) funcs)
    | MdChain | MdOp =>
        do t <- setNode t i (nLeft (sc_sub s));
        do t <- setNodeAt t (sc_sub s) (nParent (Some i));
        let h := match c_head c with None => Some i | h => h end in
        Ok (withTree (withSub c (sIdx s (Some i) (sc_field s) (Some i) (sc_val s))) t h)
    | MdValue =>
        do t <- setNode t i (nParent (sc_op s));
        do t <- setNodeAt t (sc_op s) (nRight (Some i));
        Ok (withOuts (withTree (withSub c (sIdx s (sc_op s) (sc_field s) (sc_op s) (Some i))) t (c_head c)) (c_paths c) funcs)
    end.

  (** simpleParser.go:171-174 - [isUnused]. *)
  Definition isUnused (s : subctx) : bool :=
    match sc_field s, sc_op s, sc_val s, sc_sub s, sc_mode s with None, None, None, None, MdField => true | _, _, _, _, _ => false end.

  (** simpleParser.go:1103-1146 - [mergeAndRestoreSubContexts]. *)
  Definition merge (c : ctx) (old : subctx) : outcome (ctx * serr) :=
    if isUnused old then Ok (c, SNil)
    else if negb (sc_one (c_sub c)) && sc_bool old then Ok (c, SNil)
    else
      match sc_op old, sc_op (c_sub c) with
      | Some a, Some b =>
          if (length (c_tree c) <=? a) || (length (c_tree c) <=? b) then Ok (c, SOther)
          else
            do na <- idx (c_tree c) a;
            match pn_right na with
            | Some _ => Ok (c, SOther)
            | None =>
                do t <- setNode (c_tree c) a (nRight (Some b));
                do nb <- idx t b;
                match pn_parent nb with
                | Some _ => Ok (withTree c t (c_head c), SOther)
                | None =>
                    do t <- setNode t b (nParent (Some a));
                    do na <- idx t a;
                    let h := match pn_parent na with None => Some a | Some _ => c_head c end in
                    Ok (withSub (withTree c t h) old, SNil)
                end
            end
      | _, _ => Panic
      end.

  (** simpleParser.go:1167-1225 - [parse]; [fuel] also bounds the token reader. *)
  Definition finish (c : ctx) (e : serr) : outcome (ctx * serr) :=
    Ok (c, match e with SNoMore => if c_depth c =? 0 then SNil else SOther | e => e end).
  Fixpoint parse (fuel : nat) (c : ctx) : outcome (ctx * serr) :=
    match fuel with
    | O => OutOfFuel
    | S f =>
        let next c := let (c, e) := advance c in match e with SNil => parse f c | e => finish c e end in
        do (q, e) <- getToken f c;
        match q with (c, t, ty) =>
          match e with
          | SNil =>
              let (c, e) := checkType c ty in
              match e with
              | SNil => do c <- insertNode c ty t; next c
              | SNewCtx | SOneNewCtx =>
                  let old := c_sub c in
                  do (c, e) <- parse f (withSub c (newSub (match e with SOneNewCtx => true | _ => false end)));
                  match e with
                  | SNil | SOneDone => do (c, e) <- merge c old; match e with SNil => next c | e => finish c e end
                  | e => finish c e
                  end
              | e => finish c e
              end
          | e => finish c e
          end
        end
    end.

  (** ** Output: simpleParser.go:1253-1686 *)

  (** 1327-1339 - [outputValueInternal] of a text: strconv.ParseInt and ParseFloat. *)
  Definition decimal (s : bytes) : Z := fold_left (fun a c => (10 * a + (Z.of_N c - 48))%Z) s 0%Z.
  Definition intOf (s : bytes) : Z :=
    match s with c :: r => if N.eqb c 45 then (- decimal r)%Z else decimal s | [] => 0%Z end.
  Definition outValue (s : bytes) : outcome expr :=
    if isNum s then
      if isIntText s then
        let z := intOf s in if ((- 2 ^ 63 <=? z) && (z <? 2 ^ 63))%Z then Ok (XValue (GInt z)) else Err
      else let (f, ok) := o_parseFloat o s in if ok then Ok (XValue (GFloat f)) else Err
    else Ok (XValue (GString s)).

  (** 1364-1414 - [outputFunc]; a constant below a call crashes (1396). *)
  Fixpoint outFunc (fuel : nat) (h : fhelper) (lvl : nat) : outcome expr :=
    match fuel with
    | O => OutOfFuel
    | S f =>
        match nth_error (h_args h) lvl with
        | Some (FStr key :: l) =>
            let name := match find (fun p => bytes_eqb (fst (fst p)) key) builtins with Some (_, _, n) => n | None => [] end in
            match l with
            | [] => if bytes_eqb name (s2b "mathPi") then Ok (XValue (GFloat fpi)) else if bytes_eqb name (s2b "mathE") then Ok (XValue (GFloat fe)) else Ok (XFunc name [])
            | _ =>
                do ps <- (fix go l := match l with
                          | [] => Ok []
                          | FIdx n :: r => do e <- outFunc f h n; match e with XFunc _ _ => do es <- go r; Ok (e :: es) | _ => Panic end
                          | FPath p :: r => do es <- go r; Ok (XField 0 p :: es)
                          | FStr s :: r => do e <- outValue s; do es <- go r; Ok (e :: es)
                          end) l;
                Ok (XFunc name ps)
            end
        | _ => Err
        end
    end.

  Definition lookupN {A : Type} (i : nat) (l : list (nat * A)) : option A :=
    match find (fun p => fst p =? i) l with Some (_, a) => Some a | None => None end.
  Definition cmpOp (op : bytes) : option cmpk :=
    if bytes_eqb op (s2b "==") then Some CEq else if bytes_eqb op (s2b "!=") then Some CNe else if bytes_eqb op (s2b "<") then Some CLt
    else if bytes_eqb op (s2b "<=") then Some CLe else if bytes_eqb op (s2b ">") then Some CGt else if bytes_eqb op (s2b ">=") then Some CGe
    else if bytes_eqb op (s2b "=~") then Some CLike else None.

  (** 1260-1325, 1341-1362, 1416-1669 - [outputNode] and the operators.  A left side is required
      (1269: index -1 crashes), a missing right side is an error, found before the left
      side is looked at for a comparison and after it for && and ||. *)
  Fixpoint outNode (fuel : nat) (c : ctx) (i : nat) : outcome expr :=
    match fuel with
    | O => OutOfFuel
    | S f =>
        match nth_error (c_tree c) i with
        | None => Err
        | Some n =>
            match pn_type n with
            | TkField => match lookupN i (c_paths c) with Some p => Ok (XField 0 p) | None => Err end
            | TkTrue => Ok (XValue (GBool true))
            | TkFalse => Ok (XValue (GBool false))
            | TkValue => outValue (pn_data n)
            | TkRegex => Ok (XRegex (pn_data n))
            | TkPcre => Ok (XPcre (pn_data n))
            | TkFunc => match lookupN i (c_funcs c) with Some h => outFunc f h (h_lvl h) | None => Err end
            | TkOp =>
                let op := pn_data n in
                let left := match pn_left n with None => Panic | Some l => outNode f c l end in
                let two (k : expr -> expr -> expr) :=
                  match pn_left n with
                  | None => Panic
                  | Some l => match pn_right n with
                              | None => Err
                              | Some r => do a <- outNode f c l; do b <- outNode f c r; Ok (k a b)
                              end
                  end in
                let both (k : expr -> expr -> expr) :=
                  do a <- left; match pn_right n with None => Err | Some r => do b <- outNode f c r; Ok (k a b) end in
                match cmpOp op with
                | Some k => two (XCmp k)
                | None =>
                    if bytes_eqb op (s2b "NOT_LIKE") then two (fun a b => XNot (XCmp CLike a b))
                    else if bytes_eqb op (s2b "||") then both (fun a b => XOr [a; b])
                    else if bytes_eqb op (s2b "&&") then both (fun a b => XAnd [a; b])
                    else if bytes_eqb op (s2b "EXISTS") then do a <- left; Ok (XExists a)
                    else if bytes_eqb op (s2b "IS_MISSING") then do a <- left; Ok (XNotExists a)
                    else if bytes_eqb op (s2b "IS_NULL") then do a <- left; Ok (XCmp CEq a (XValue GNil))
                    else if bytes_eqb op (s2b "IS_NOT_NULL") then do a <- left; Ok (XCmp CNe a (XValue GNil))
                    else Err
                end
            | TkParen | TkEndParen | TkInvalid => Err
            end
        end
    end.

  (** 1671-1686 - [outputExpression]. *)
  Definition outputSimple (fuel : nat) (c : ctx) : outcome expr :=
    match c_head c with
    | None => Err
    | Some h => match nth_error (c_tree c) h with
                | Some n => match pn_type n with TkOp => outNode fuel c h | _ => Err end
                | None => Err
                end
    end.

  (** simpleParser.go:1149-1164 - [enableShortCircuitEvalIfPossible]: only one of && and
      || occurs as a word. *)
  Definition shortCircuit (toks : list bytes) : bool :=
    let a := isOneOf (s2b "&&") toks in let b := isOneOf (s2b "||") toks in xorb a b.

  Definition startCtx (toks : list bytes) : ctx :=
    {| c_toks := toks; c_cur := 0; c_advOnly := false; c_lastField := []; c_depth := 0; c_sub := newSub false; c_short := shortCircuit toks;
       c_tree := []; c_head := None; c_paths := []; c_funcs := [] |}.
  (** simpleParser.go:1740-1750 - [ParseSimpleExpression]. *)
  Definition parseSimple (fuel : nat) (text : bytes) : outcome expr :=
    do (c, e) <- parse fuel (startCtx (fields text));
    match e with SNil => outputSimple fuel c | _ => Err end.
End Simple.
