(** Specification: simple filters as written, and the expression each stands for. *)
From Coq Require Import String.
From Verif Require Import Base MTokenizer MLit MFastVal MMath MExpr.
From Coq Require Import List NArith ZArith Arith Lia Bool.
Import ListNotations.
Open Scope nat_scope.

(** ** Syntax *)

(** [name] or [`name`]; then [[12]] with the digits as written. *)
Inductive sseg := SPlain (n : bytes) | SQuote (n : bytes).
Record spath := { sp_segs : list sseg; sp_idx : list bytes }.
(** [-12], [-12.50] and its value, ["text"] or ['text'] as its words, [true]. *)
Inductive sval := SInt (neg : bool) (ds : bytes) | SDec (neg : bool) (ds fs : bytes) (f : float) | SStr (dbl : bool) (ws : list bytes) | SBool (b : bool).
(** What a function may be applied to: a path, a constant, and as first argument another call. *)
Inductive sleaf := LPath (p : spath) | LVal (v : sval).
Inductive sarg := ALeaf (l : sleaf) | ACall (name : bytes) (first : sarg) (more : list sleaf).
(** [==], [=], [!=], [<], [<=], [>], [>=] *)
Inductive scop := PEq | PEq1 | PNe | PLt | PLe | PGt | PGe.
(** [=~], [LIKE], [NOT LIKE] *)
Inductive slike := PTilde | PLike | PNotLike.
Inductive stest := TCmp (op : scop) (v : sval) | TCall (op : scop) (c : sarg) | TLike (l : slike) (dbl : bool) (re : bytes) | TExists | TMissing | TNull | TNotNull.
(** The subject is a path or a call. *)
Record satom := { a_subj : sarg; a_test : stest }.
(** [&&], [AND], [||], [OR] *)
Inductive sjoin := JAnd | JAndW | JOr | JOrW.
(** One test, or several joined. *)
Record schain := { ch_first : satom; ch_rest : list (sjoin * satom) }.

(** ** Text *)
Fixpoint joinBy (sep : bytes) (l : list bytes) : bytes :=
  match l with [] => [] | a :: r => match r with [] => a | _ => a ++ sep ++ joinBy sep r end end.
Definition segName (s : sseg) : bytes := match s with SPlain n => n | SQuote n => n end.
Definition segText (s : sseg) : bytes := match s with SPlain n => n | SQuote n => [96%N] ++ n ++ [96%N] end.
Definition idxText (d : bytes) : bytes := [91%N] ++ d ++ [93%N].
Definition pathText (p : spath) : bytes := joinBy [46%N] (map segText (sp_segs p)) ++ concat (map idxText (sp_idx p)).
Definition quote (dbl : bool) : N := if dbl then 34%N else 39%N.
Definition strText (ws : list bytes) : bytes := joinBy [32%N] ws.
Definition valText (v : sval) : bytes :=
  match v with
  | SInt neg ds => (if neg then [45%N] else []) ++ ds
  | SDec neg ds fs _ => ((if neg then [45%N] else []) ++ ds) ++ 46%N :: fs
  | SStr dbl ws => [quote dbl] ++ strText ws ++ [quote dbl]
  | SBool b => s2b (if b then "true" else "false")
  end.
Definition leafText (l : sleaf) : bytes := match l with LPath p => pathText p | LVal v => valText v end.
Fixpoint argText (a : sarg) : bytes :=
  match a with ALeaf l => leafText l | ACall n f r => n ++ [40%N] ++ joinBy [44%N] (argText f :: map leafText r) ++ [41%N] end.
Definition copText (op : scop) : bytes :=
  s2b match op with PEq => "==" | PEq1 => "=" | PNe => "!=" | PLt => "<" | PLe => "<=" | PGt => ">" | PGe => ">=" end.
Definition likeText (l : slike) : bytes := s2b match l with PTilde => "=~" | PLike => "LIKE" | PNotLike => "NOT LIKE" end.
Definition testText (t : stest) : bytes :=
  match t with
  | TCmp op v => copText op ++ [32%N] ++ valText v
  | TCall op c => copText op ++ [32%N] ++ argText c
  | TLike l dbl re => likeText l ++ [32%N] ++ [quote dbl] ++ re ++ [quote dbl]
  | TExists => s2b "EXISTS"
  | TMissing => s2b "IS MISSING"
  | TNull => s2b "IS NULL"
  | TNotNull => s2b "IS NOT NULL"
  end.
Definition atomText (a : satom) : bytes := argText (a_subj a) ++ [32%N] ++ testText (a_test a).
Definition joinText (j : sjoin) : bytes := s2b match j with JAnd => "&&" | JAndW => "AND" | JOr => "||" | JOrW => "OR" end.
Definition chainText (c : schain) : bytes :=
  atomText (ch_first c) ++ concat (map (fun p => [32%N] ++ joinText (fst p) ++ [32%N] ++ atomText (snd p)) (ch_rest c)).

(** ** Meaning *)
Definition pathOf (p : spath) : list bytes := map segName (sp_segs p) ++ map idxText (sp_idx p).
Definition digitsVal (ds : bytes) : Z := fold_left (fun a c => (10 * a + (Z.of_N c - 48))%Z) ds 0%Z.
Definition intVal (neg : bool) (ds : bytes) : Z := if neg then (- digitsVal ds)%Z else digitsVal ds.
Definition valGo (v : sval) : gval :=
  match v with SInt neg ds => GInt (intVal neg ds) | SDec _ _ _ f => GFloat f | SStr _ ws => GString (strText ws) | SBool b => GBool b end.
(** Functions of one and of two arguments: as written, as called. *)
Definition funs1 : list (bytes * bytes) :=
  map (fun p => (s2b (fst p), s2b (snd p)))
    [("ABS", "mathAbs"); ("ACOS", "mathAcos"); ("ASIN", "mathAsin"); ("ATAN", "mathAtan"); ("CEIL", "mathCeil"); ("COS", "mathCos"); ("DATE", "date");
     ("DEGREES", "mathDegrees"); ("EXP", "mathExp"); ("FLOOR", "mathFloor"); ("LOG", "mathLog"); ("LN", "mathLn"); ("SIN", "mathSin"); ("TAN", "mathTan");
     ("RADIANS", "mathRadians"); ("ROUND", "mathRound"); ("SQRT", "mathSqrt")]%string.
Definition funs2 : list (bytes * bytes) := map (fun p => (s2b (fst p), s2b (snd p))) [("ATAN2", "mathAtan2"); ("POW", "mathPow")]%string.
Definition called (n : bytes) : bytes := match find (fun p => bytes_eqb (fst p) n) (funs1 ++ funs2) with Some (_, g) => g | None => [] end.
Definition leafExpr (l : sleaf) : expr := match l with LPath p => XField 0 (pathOf p) | LVal v => XValue (valGo v) end.
Fixpoint argExpr (a : sarg) : expr :=
  match a with ALeaf l => leafExpr l | ACall n f r => XFunc (called n) (argExpr f :: map leafExpr r) end.
Definition copCmp (op : scop) : cmpk :=
  match op with PEq | PEq1 => CEq | PNe => CNe | PLt => CLt | PLe => CLe | PGt => CGt | PGe => CGe end.
Definition atomExpr (a : satom) : expr :=
  let f := argExpr (a_subj a) in
  match a_test a with
  | TCmp op v => XCmp (copCmp op) f (XValue (valGo v))
  | TCall op c => XCmp (copCmp op) f (argExpr c)
  | TLike PNotLike _ re => XNot (XCmp CLike f (XRegex re))
  | TLike _ _ re => XCmp CLike f (XRegex re)
  | TExists => XExists f
  | TMissing => XNotExists f
  | TNull => XCmp CEq f (XValue GNil)
  | TNotNull => XCmp CNe f (XValue GNil)
  end.
Definition isAnd (j : sjoin) : bool := match j with JAnd | JAndW => true | _ => false end.
Definition joinExpr (j : sjoin) (a b : expr) : expr := if isAnd j then XAnd [a; b] else XOr [a; b].
(** [a j (b k (c ...))] and [((a j b) k c) ...] *)
Fixpoint rightNest (a : satom) (r : list (sjoin * satom)) : expr :=
  match r with [] => atomExpr a | (j, b) :: r' => joinExpr j (atomExpr a) (rightNest b r') end.
Definition leftNest (a : satom) (r : list (sjoin * satom)) : expr :=
  fold_left (fun e p => joinExpr (fst p) e (atomExpr (snd p))) r (atomExpr a).
(** A test with something after its operator. *)
Definition binaryb (a : satom) : bool := match a_test a with TCmp _ _ | TCall _ _ | TLike _ _ _ => true | _ => false end.
(** The grouping in general: the chain read so far is joined with the next test, or, when that
    one cannot be finished on its own ([all]: none can; otherwise those with nothing after the
    operator), with everything from there on. *)
Fixpoint group (all : bool) (e : expr) (r : list (sjoin * satom)) : expr :=
  match r with
  | [] => e
  | (j, b) :: r' => if negb all && binaryb b then group all (joinExpr j e (atomExpr b)) r' else joinExpr j e (group all (atomExpr b) r')
  end.

(** ** What may be written *)

(** No white space in it: neither ASCII nor the first byte of any other. *)
Definition solid (w : bytes) : Prop := w <> [] /\ Forall (fun c => ~ In c [9; 10; 11; 12; 13; 32; 194; 225; 226; 227]%N) w.
Definition without (w : bytes) (l : list N) : Prop := Forall (fun c => ~ In c l) w.
Definition opTexts : list bytes :=
  map s2b ["&&"; "AND"; "||"; "OR"; "=="; "="; "!="; ">="; "<"; "<="; ">"; "=~"; "LIKE"; "NOT_LIKE"; "EXISTS"; "IS_MISSING"; "IS_NULL"; "IS_NOT_NULL"]%string.
Definition noOps (w : bytes) : Prop := forall op a b, In op opTexts -> w <> a ++ op ++ b.
Definition digit (c : N) : Prop := (48 <= c <= 57)%N.
(** Something in it that a number does not have. *)
Definition wordy (w : bytes) : Prop := exists c, In c w /\ ~ digit c /\ c <> 45%N /\ c <> 46%N.

Definition segOk (s : sseg) : Prop :=
  match s with SPlain n => n <> [] /\ without n [46; 96; 91]%N | SQuote n => n <> [] /\ without n [96]%N end.
Definition idxOk (d : bytes) : Prop := d <> [] /\ Forall digit d /\ hd 0%N d <> 48%N.
Definition pathOk (p : spath) : Prop :=
  let w := pathText p in
  sp_segs p <> [] /\ Forall segOk (sp_segs p) /\ Forall idxOk (sp_idx p)
  /\ solid w /\ without w [40; 41]%N /\ noOps w /\ wordy w /\ ~ In w (map s2b ["NOT"; "IS"; "true"; "false"]%string).
Definition valOk (o : oracles) (v : sval) : Prop :=
  match v with
  | SInt neg ds => ds <> [] /\ Forall digit ds /\ (hd 0%N ds = 48%N -> length ds = 1) /\ (- 2 ^ 63 <= intVal neg ds < 2 ^ 63)%Z
  | SDec neg ds fs f => ds <> [] /\ Forall digit ds /\ (hd 0%N ds = 48%N -> length ds = 1) /\ fs <> [] /\ Forall digit fs
      /\ o_parseFloat o (valText v) = (f, true)
  | SStr dbl ws => Forall solid ws /\ Forall (fun w => without w [quote dbl]) ws
      /\ match ws with [] => True | [w] => wordy w | w :: _ => without w [40; 41]%N end
  | SBool _ => True
  end.
(** Arguments are single words without parentheses and commas. *)
Definition leafOk (o : oracles) (l : sleaf) : Prop :=
  let w := leafText l in
  solid w /\ without w [40; 41; 44]%N
  /\ match l with
     | LPath p => sp_segs p <> [] /\ Forall segOk (sp_segs p) /\ Forall idxOk (sp_idx p) /\ wordy w /\ ~ In (hd 0%N w) [34; 39]%N
     | LVal v => valOk o v /\ match v with SBool _ => False | SStr _ ws => length ws <= 1 | _ => True end
     end.
(** [DATE] of a text: one the library takes for an RFC 3339 time. *)
Definition dateOk (o : oracles) (n : bytes) (a : sarg) : Prop :=
  match a with ALeaf (LVal (SStr _ ws)) => n = s2b "DATE" -> exists t, o_parseRFC3339 o (strText ws) = Some t | _ => True end.
Fixpoint argOk (o : oracles) (a : sarg) : Prop :=
  match a with
  | ALeaf l => leafOk o l
  | ACall n f r => ((In n (map fst funs1) /\ r = []) \/ (In n (map fst funs2) /\ length r = 1)) /\ argOk o f /\ Forall (leafOk o) r /\ dateOk o n f
  end.
Definition isCall (a : sarg) : Prop := match a with ACall _ _ _ => True | _ => False end.
Definition subjOk (o : oracles) (a : sarg) : Prop :=
  match a with ALeaf (LPath p) => pathOk p | ALeaf (LVal _) => False | _ => argOk o a end.
Definition testOk (o : oracles) (t : stest) : Prop :=
  match t with
  | TCmp op v => valOk o v /\ match v with SBool _ => op = PEq \/ op = PEq1 \/ op = PNe | _ => True end
  | TCall _ c => argOk o c /\ isCall c
  | TLike _ dbl re => solid re /\ without re [quote dbl] /\ o_regexCompiles o re = true
  | _ => True
  end.
Definition atomOk (o : oracles) (a : satom) : Prop := subjOk o (a_subj a) /\ testOk o (a_test a).
Definition chainOk (o : oracles) (c : schain) : Prop :=
  atomOk o (ch_first c) /\ Forall (fun p => atomOk o (snd p)) (ch_rest c).

(** ** Words *)

(** The words of a filter, in order. *)
Definition strWords (q : N) (ws : list bytes) : list bytes :=
  match ws with
  | [] => [[q; q]]
  | w :: r => match rev r with
              | [] => [[q] ++ w ++ [q]]
              | l :: m => ([q] ++ w) :: rev m ++ [l ++ [q]]
              end
  end.
Definition valWords (v : sval) : list bytes := match v with SStr dbl ws => strWords (quote dbl) ws | v => [valText v] end.
Definition testWords (t : stest) : list bytes :=
  match t with
  | TCmp op v => copText op :: valWords v
  | TCall op c => [copText op; argText c]
  | TLike PNotLike dbl re => [s2b "NOT"; s2b "LIKE"; [quote dbl] ++ re ++ [quote dbl]]
  | TLike l dbl re => [likeText l; [quote dbl] ++ re ++ [quote dbl]]
  | TExists => [s2b "EXISTS"]
  | TMissing => [s2b "IS"; s2b "MISSING"]
  | TNull => [s2b "IS"; s2b "NULL"]
  | TNotNull => [s2b "IS"; s2b "NOT"; s2b "NULL"]
  end.
Definition atomWords (a : satom) : list bytes := argText (a_subj a) :: testWords (a_test a).
Definition restWords (r : list (sjoin * satom)) : list bytes := concat (map (fun p => joinText (fst p) :: atomWords (snd p)) r).
Definition chainWords (c : schain) : list bytes := atomWords (ch_first c) ++ restWords (ch_rest c).
(** Exactly one of the two symbols occurs as a word of the filter (inside strings too). *)
Definition oneSymbol (c : schain) : Prop :=
  (In (s2b "&&") (chainWords c) /\ ~ In (s2b "||") (chainWords c)) \/ (In (s2b "||") (chainWords c) /\ ~ In (s2b "&&") (chainWords c)).
