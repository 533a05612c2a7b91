(** Model of expression_json.go: expressions in JSON array syntax.

    Simplification: the input is the value decoded by encoding/json, not its text. *)
From Coq Require Import String.
From Verif Require Import Base MTokenizer MLit MFastVal SEvents MExpr.
From Coq Require Import List NArith ZArith Arith Lia Bool.
Import ListNotations.
Open Scope nat_scope.

(** What json.Unmarshal puts into an interface{}: nil, bool, float64, string,
    []interface{}, map[string]interface{}. *)
Inductive jv :=
| JNull | JBool (b : bool) | JNum (f : float) | JStr (s : bytes) | JArr (l : list jv) | JObj (m : list (bytes * jv)).

(** expression.go:24-257 with the payloads this parser produces: values, regular
    expressions and times hold whatever was decoded, variables are Go ints. *)
Inductive pexpr :=
| PValue (v : jv)
| PTime (v : jv)
| PRegex (v : jv)
| PNot (e : pexpr)
| PAnd (l : list pexpr)
| POr (l : list pexpr)
| PField (root : Z) (path : list bytes)
| PFunc (name : bytes) (params : list pexpr)
| PLoop (m : lmode) (var : Z) (inE sub : pexpr)
| PExists (e : pexpr)
| PNotExists (e : pexpr)
| PCmp (k : cmpk) (l r : pexpr).

Section Parse.
  Variable o : oracles.

  (** fastval_date.go:19-22 - [validTimeChecker]. *)
  Definition validTime (s : bytes) : bool :=
    match o_parseRFC3339 o s with Some _ => true | None => iso8601Year s || iso8601YearAndMonth s || iso8601CompleteDate s end.

  Definition isKw (s : bytes) (k : string) : bool := bytes_eqb s (s2b k).

  (** expression_json.go:23-29 - the path of a field. *)
  Fixpoint pathOf (l : list jv) : outcome (list bytes) :=
    match l with
    | [] => Ok []
    | JStr s :: r => do p <- pathOf r; Ok (s :: p)
    | _ :: _ => Err
    end.

  (** expression_json.go:16-32 - [parseJsonField]; [data[pos]] with pos = 1. *)
  Definition parseField (args : list jv) : outcome pexpr :=
    match args with
    | [] => Panic (* line 19 *)
    | JNum f :: r => do p <- pathOf r; Ok (PField (f2i o f) p)
    | l => do p <- pathOf l; Ok (PField 0 p)
    end.

  (** expression_json.go:285-292 - [parseJsonTime]. *)
  Definition parseTime (args : list jv) : outcome pexpr :=
    match args with
    | [] => Panic
    | v :: _ => match v with JStr s => if validTime s then Ok (PTime v) else Err | _ => Ok (PTime v) end
    end.

  Section Rec.
    (** [parseJsonSubexpr] on the array inside. *)
    Variable sub : jv -> outcome pexpr.

    (** The type assertion [data[i].([]interface{})] with its ok result checked. *)
    Definition isArr (v : jv) : bool := match v with JArr _ => true | _ => false end.

    (** expression_json.go:41-49 - the parameters of a function; the type assertion
        is not checked. *)
    Fixpoint parseParams (l : list jv) : outcome (list pexpr) :=
      match l with
      | [] => Ok []
      | x :: r => if isArr x then do p <- sub x; do ps <- parseParams r; Ok (p :: ps) else Panic (* line 42 *)
      end.
    (** expression_json.go:34-52 - [parseJsonFunc]. *)
    Definition parseFunc (args : list jv) : outcome pexpr :=
      match args with
      | [] => Panic (* line 37 *)
      | JStr n :: r => do ps <- parseParams r; Ok (PFunc n ps)
      | l => do ps <- parseParams l; Ok (PFunc [] ps)
      end.
    (** expression_json.go:178-194, 196-212 - the operands of [parseJsonOr] and [parseJsonAnd]. *)
    Fixpoint parseList (l : list jv) : outcome (list pexpr) :=
      match l with
      | [] => Ok []
      | x :: r => if isArr x then do p <- sub x; do ps <- parseList r; Ok (p :: ps) else Err
      end.
    (** expression_json.go:54-66, 68-80, 160-176 - one operand. *)
    Definition parseOne (args : list jv) (f : pexpr -> pexpr) : outcome pexpr :=
      match args with
      | [] => Panic
      | x :: _ => if isArr x then do p <- sub x; Ok (f p) else Err
      end.
    (** expression_json.go:82-104 - [parseJsonComparison]. *)
    Definition parseComparison (args : list jv) (f : pexpr -> pexpr -> pexpr) : outcome pexpr :=
      match args with
      | [] => Panic (* line 83 *)
      | x :: r =>
          if isArr x then
            match r with
            | [] => Panic (* line 88 *)
            | y :: _ => if isArr y then do l <- sub x; do r' <- sub y; Ok (f l r') else Err
            end
          else Err
      end.
    (** expression_json.go:214-241 - [parseJsonLoop]. *)
    Definition parseLoop (args : list jv) (m : lmode) : outcome pexpr :=
      match args with
      | [] => Panic (* line 215 *)
      | JNum f :: r =>
          match r with
          | [] => Panic (* line 220 *)
          | x :: r2 =>
              if isArr x then
                match r2 with
                | [] => Panic (* line 225 *)
                | y :: _ => if isArr y then do i <- sub x; do s <- sub y; Ok (PLoop m (f2i o f) i s) else Err
                end
              else Err
          end
      | _ :: _ => Err
      end.
  End Rec.

  (** expression_json.go:294-345 - [parseJsonSubexpr], with the functions it
      dispatches to; called on arrays only. *)
  Fixpoint parseSub (v : jv) : outcome pexpr :=
    match v with
    | JArr (JStr kw :: args) =>
        if isKw kw "value" then match args with [] => Panic | x :: _ => Ok (PValue x) end (* 10-14 *)
        else if isKw kw "field" then parseField args
        else if isKw kw "func" then parseFunc parseSub args
        else if isKw kw "not" then parseOne parseSub args PNot
        else if isKw kw "or" then do l <- parseList parseSub args; Ok (POr l)
        else if isKw kw "and" then do l <- parseList parseSub args; Ok (PAnd l)
        else if isKw kw "anyin" then parseLoop parseSub args LAny
        else if isKw kw "everyin" then parseLoop parseSub args LEvery
        else if isKw kw "anyeveryin" then parseLoop parseSub args LAnyEvery
        else if isKw kw "exists" then parseOne parseSub args PExists
        else if isKw kw "notexists" then parseOne parseSub args PNotExists
        else if isKw kw "equals" then parseComparison parseSub args (PCmp CEq)
        else if isKw kw "notequals" then parseComparison parseSub args (PCmp CNe)
        else if isKw kw "lessthan" then parseComparison parseSub args (PCmp CLt)
        else if isKw kw "lessequals" then parseComparison parseSub args (PCmp CLe)
        else if isKw kw "greaterthan" then parseComparison parseSub args (PCmp CGt)
        else if isKw kw "greaterequals" then parseComparison parseSub args (PCmp CGe)
        else if isKw kw "like" then parseComparison parseSub args (PCmp CLike)
        else if isKw kw "regex" then match args with [] => Panic | x :: _ => Ok (PRegex x) end (* 279-283 *)
        else if isKw kw "time" then parseTime args
        else Err (* line 344 *)
    | JArr [] => Panic (* line 295 *)
    | _ => Err
    end.

  (** expression_json.go:347-354 - [ParseJsonExpression] after decoding: a value that is
      neither an array nor null does not fit []interface{}, null leaves it empty. *)
  Definition parseJson (v : jv) : outcome pexpr :=
    match v with
    | JArr _ => parseSub v
    | JNull => parseSub (JArr [])
    | _ => Err
    end.
End Parse.

(** The expression the rest of the code sees (MExpr.v): constants as in [NewFastVal],
    times and regular expressions that are strings (others make compiling
    crash, transform.go:305, 333), variables that are not negative. *)
Definition valueOf (v : jv) : gval :=
  match v with
  | JNull => GNil | JBool b => GBool b | JNum f => GFloat f | JStr s => GString s | JArr _ | JObj _ => GOther
  end.
Fixpoint toExpr (p : pexpr) : option expr :=
  let list_ := fix go (l : list pexpr) : option (list expr) :=
    match l with
    | [] => Some []
    | x :: r => match toExpr x, go r with Some e, Some es => Some (e :: es) | _, _ => None end
    end in
  match p with
  | PValue v => Some (XValue (valueOf v))
  | PTime (JStr s) => Some (XTime s)
  | PRegex (JStr s) => Some (XRegex s)
  | PTime _ | PRegex _ => None
  | PNot a => option_map XNot (toExpr a)
  | PAnd l => option_map XAnd (list_ l)
  | POr l => option_map XOr (list_ l)
  | PField r q => if (r <? 0)%Z then None else Some (XField (Z.to_nat r) q)
  | PFunc n l => option_map (XFunc n) (list_ l)
  | PLoop m v i s =>
      if (v <? 0)%Z then None
      else match toExpr i, toExpr s with Some i', Some s' => Some (XLoop m (Z.to_nat v) i' s') | _, _ => None end
  | PExists a => option_map XExists (toExpr a)
  | PNotExists a => option_map XNotExists (toExpr a)
  | PCmp k l r => match toExpr l, toExpr r with Some l', Some r' => Some (XCmp k l' r') | _, _ => None end
  end.
