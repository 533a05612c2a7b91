(** Model of filterExprParser.go and of the PCRE test in constants.go: the syntax
    trees of text filters and their translation to expressions.

    The trees are filled in by the participle library from the grammar in the struct
    tags; that library is not modelled.  A pointer is an option; a nil slice and an
    empty one are both [[]]; pointers stored inside slices are not nil. *)
From Coq Require Import String.
From Verif Require Import Base MTokenizer MLit MFastVal MMath SEvents MExpr MExprJson MTransform MMatcher.
From Coq Require Import List NArith ZArith Arith Lia Bool.
From Coq Require Import Floats.SpecFloat.
Import ListNotations.
Open Scope nat_scope.

(** ** Trees *)

(** filterExprParser.go:315-320 *)
Record feBoolean := { b_T : option bool; b_T1 : option bool; b_F : option bool; b_F1 : option bool }.
(** filterExprParser.go:764-768; [int] is 64 bits wide. *)
Record feMathValue := { mv_neg : option bool; mv_int : option Z; mv_float : option float }.
(** filterExprParser.go:806-809 *)
Record feValue := { v_math : option feMathValue; v_str : option bytes }.
(** filterExprParser.go:617-621 *)
Record feStringType := { st_char : bytes; st_raw : bytes; st_ident : bytes }.
(** filterExprParser.go:706-708, 694-696, 682-684: META(). *)
Record feOnePathFuncNoArgName := { pn_meta : option bool }.
Record feOnePathFuncNoArg := { pa_name : option feOnePathFuncNoArgName }.
Record feOnePathFuncExpr := { pf_noarg : option feOnePathFuncNoArg }.
(** filterExprParser.go:635-639, 672-676; an index is its text. *)
Record feOnePath := { p_func : option feOnePathFuncExpr; p_str : option feStringType; p_idx : list bytes }.
(** filterExprParser.go:575-578 *)
Record feField := { f_neg : option bool; f_path : list feOnePath }.
(** filterExprParser.go:724-730 *)
Record feMathOp := { mo_add : option bool; mo_sub : option bool; mo_mul : option bool; mo_div : option bool; mo_mod : option bool }.
(** filterExprParser.go:469-473 *)
Record feType0 := { t0_value : option feMathValue; t0_op : option feMathOp; t0_field : option feField }.
(** filterExprParser.go:513-518 *)
Record feType1 := { t1_field : option feField; t1_op : option feMathOp; t1_value : option feMathValue; t1_other : option feField }.
(** filterExprParser.go:443-447 *)
Record feFieldWithMath := { fm_type0 : option feType0; fm_type1 : option feType1; fm_only : option feField }.
(** filterExprParser.go:1111-1114, 1087-1089 *)
Record feNoArgName := { na_pi : option bool; na_e : option bool }.
Record feNoArg := { n_name : option feNoArgName }.
(** filterExprParser.go:1231-1249, 1367-1370: the flags by name, in source order. *)
Inductive fname1 := NAbs | NAcos | NAsin | NAtan | NCeil | NCos | NDate | NDegrees | NExp | NFloor | NLog | NLn | NSin | NTan | NRadians | NRound | NSqrt.
Definition feOneArgName := fname1 -> option bool.
Record feTwoArgsName := { tn_atan2 : option bool; tn_pow : option bool }.
(** filterExprParser.go:1037-1042, 1194-1197, 1331-1335, 1127-1131 *)
Inductive feConstFunc := FeConstFunc (neg : option bool) (noArg : option feNoArg) (oneArg : option feOneArg) (twoArgs : option feTwoArgs)
with feOneArg := FeOneArg (name : option feOneArgName) (arg : option feArgument)
with feTwoArgs := FeTwoArgs (name : option feTwoArgsName) (arg0 arg1 : option feArgument)
with feArgument := FeArgument (sub : option feConstFunc) (field : option feFieldWithMath) (value : option feValue).
(** filterExprParser.go:1158-1161 *)
Record feArgumentRHS := { ar_sub : option feConstFunc; ar_value : option feValue }.
(** filterExprParser.go:1457-1459, 1416-1420 *)
Record feBoolTwoArgsName := { bn_regex : option bool }.
Record feBoolTwoArgs := { bt_name : option feBoolTwoArgsName; bt_arg0 : option feArgument; bt_arg1 : option feArgumentRHS }.
(** filterExprParser.go:1477-1479, 1392-1395, 290-293 *)
Record feExists := { ex_field : option feField }.
Record feBooleanFunc := { bf_two : option feBoolTwoArgs; bf_exists : option feExists }.
Record feBooleanExpr := { be_val : option feBoolean; be_func : option feBooleanFunc }.
(** filterExprParser.go:837-842, 857-860 *)
Record feOpChar := { oc_not : option bool; oc_eq : option bool; oc_lt : option bool; oc_gt : option bool }.
Record feCompareOp := { op_0 : option feOpChar; op_1 : option feOpChar }.
(** filterExprParser.go:961-965 *)
Record feCheckOp := { ck_not : option bool; ck_null : option bool; ck_missing : option bool }.
(** filterExprParser.go:372-377, 408-413: the same fields in another order. *)
Record feSide := { sd_func : option feConstFunc; sd_bool : option feBoolean; sd_field : option feFieldWithMath; sd_value : option feValue }.
(** filterExprParser.go:244-250 *)
Record feOperand := { o_bool : option feBooleanExpr; o_lhs : option feSide; o_op : option feCompareOp; o_rhs : option feSide; o_check : option feCheckOp }.
(** filterExprParser.go:214-217 *)
Inductive feCondition := FeCondition (not : option feCondition) (operand : option feOperand).
(** filterExprParser.go:72-74, 102-104, 132-135 *)
Inductive feInner := FeInner (l : list feInnerAnd)
with feInnerAnd := FeInnerAnd (l : list feSubOrTerm)
with feSubOrTerm := FeSubOrTerm (sub : option feInner) (expr : option feCondition).
(** filterExprParser.go:52-54 *)
Record feFilter := { fe_expr : option feInner }.

(** ** Texts of trees, where the translation uses them *)

(** What the translation takes from outside: fmt's %v of a float64, whether PCRE is
    compiled in (pcre_wrapper.go or pcre_wrapper_disabled.go). *)
Record textEnv := { x_fmtV : float -> bytes; x_pcre : bool }.

(** constants.go:165-185 - [tokenIsPcreValueType]: "(?=", "(?<" or "(?!" (the last
    pattern, "(?<!", is a case of the second), then at least one character, no
    newline, and a closing parenthesis. *)
Fixpoint closes (seen : bool) (l : bytes) : bool :=
  match l with
  | [] => false
  | c :: r => if N.eqb c 41 && seen then true else if N.eqb c 10 then false else closes true r
  end.
Fixpoint tokenIsPcre (l : bytes) : bool :=
  match l with
  | [] => false
  | c :: r =>
      match r with
      | q :: d :: t => N.eqb c 40 && N.eqb q 63 && (N.eqb d 61 || N.eqb d 60 || N.eqb d 33) && closes false t
      | _ => false
      end || tokenIsPcre r
  end.

Definition isTrue (b : option bool) : bool := match b with Some true => true | _ => false end.
Definition isSet {A : Type} (x : option A) : bool := match x with Some _ => true | None => false end.

Section Text.
  Variable o : oracles.
  Variable x : textEnv.

  (** filterExprParser.go:788-804 and 770-786: the number as an expression, and as text. *)
  Definition outMathValue (f : feMathValue) : outcome gval :=
    match mv_int f with
    | Some z => Ok (GInt (if isTrue (mv_neg f) then wrap64 (z * -1) else z))
    | None =>
        match mv_float f with
        | Some g => Ok (GFloat (if isTrue (mv_neg f) then fmul g (Z2f (-1)) else g))
        | None => Err
        end
    end.
  Definition strMathValue (f : feMathValue) : bytes :=
    match outMathValue f with
    | Ok (GInt z) => appendInt z
    | Ok (GFloat g) => x_fmtV x g
    | _ => s2b "?? (FEMathValue)"
    end.

  (** filterExprParser.go:811-831 *)
  Definition strValue (f : feValue) : bytes :=
    match v_str f with
    | Some s => s
    | None => match v_math f with Some m => strMathValue m | None => s2b "?? (FEValue)" end
    end.
  Definition outValue (f : feValue) : outcome expr :=
    match v_str f with
    | Some s => Ok (XValue (GString s))
    | None => match v_math f with Some m => do g <- outMathValue m; Ok (XValue g) | None => Err end
    end.

  (** ** Translation *)

  (** filterExprParser.go:336-370 *)
  Definition getBool (f : feBoolean) : bool := isTrue (b_T f) || isTrue (b_T1 f).
  Definition outBoolean (f : feBoolean) (asValue : bool) : outcome expr :=
    if isSet (b_T f) || isSet (b_T1 f) || isSet (b_F f) || isSet (b_F1 f) then
      if getBool f then Ok (if asValue then XValue (GBool true) else XTrue)
      else Ok (if asValue then XValue (GBool false) else XFalse)
    else Err.

  (** filterExprParser.go:623-633 *)
  Definition strStringType (f : feStringType) : bytes :=
    match st_char f, st_raw f with
    | c :: r, _ => st_char f
    | [], c :: r => st_raw f
    | [], [] => st_ident f
    end.
  (** filterExprParser.go:686-692, 698-704, 710-716 *)
  Definition strPathFunc (f : feOnePathFuncExpr) : bytes :=
    match pf_noarg f with
    | None => s2b "?? FEOnePathFuncExpr"
    | Some a =>
        match pa_name a with
        | None => s2b "?? (FEOnePathFuncNoArg)"
        | Some n => (if isTrue (pn_meta n) then s2b "META" else s2b "?? (FEOnePathFuncNoArgName)") ++ s2b "()"
        end
    end.
  (** filterExprParser.go:657-670, 678-680; an empty component crashes while the error
      is formatted (line 645). *)
  Definition outOnePath (f : feOnePath) : outcome (list bytes) :=
    let arrays := map (fun i => [91%N] ++ i ++ [93%N]) (p_idx f) in
    match p_str f with
    | Some s => Ok (strStringType s :: arrays)
    | None => match p_func f with Some g => Ok (strPathFunc g :: arrays) | None => Panic end
    end.
  Fixpoint outPath (l : list feOnePath) : outcome (list bytes) :=
    match l with
    | [] => Ok []
    | p :: r => do a <- outOnePath p; do b <- outPath r; Ok (a ++ b)
    end.
  (** filterExprParser.go:592-615; the root is 0. *)
  Definition outField (f : feField) : outcome expr :=
    do p <- outPath (f_path f);
    let e := XField 0 p in
    Ok (if isSet (f_neg f) then XFunc (s2b "mathNegate") [e] else e).

  (** filterExprParser.go:748-762 *)
  Definition outMathOp (f : feMathOp) : outcome bytes :=
    if isSet (mo_add f) then Ok (s2b "mathAdd")
    else if isSet (mo_sub f) then Ok (s2b "mathSubract")
    else if isSet (mo_mul f) then Ok (s2b "mathMultiply")
    else if isSet (mo_div f) then Ok (s2b "mathDivide")
    else if isSet (mo_mod f) then Ok (s2b "mathModulo")
    else Err.

  (** filterExprParser.go:487-511 *)
  Definition outType0 (f : feType0) : outcome expr :=
    match t0_op f, t0_value f, t0_field f with
    | Some p, Some v, Some fl =>
        do n <- outMathOp p; do g <- outMathValue v; do e <- outField fl; Ok (XFunc n [XValue g; e])
    | _, _, _ => Err
    end.

  (** filterExprParser.go:536-573; without a field the error text is made of the rest,
      which crashes if there is a value and a second field but no operator (line 526). *)
  Definition outType1 (f : feType1) : outcome expr :=
    match t1_field f with
    | None => match t1_value f, t1_op f, t1_other f with Some _, None, Some _ => Panic | _, _, _ => Err end
    | Some fl =>
        match t1_op f, t1_value f, t1_other f with
        | Some p, Some v, _ => do n <- outMathOp p; do e <- outField fl; do g <- outMathValue v; Ok (XFunc n [e; XValue g])
        | Some p, None, Some fl2 => do n <- outMathOp p; do e <- outField fl; do e2 <- outField fl2; Ok (XFunc n [e; e2])
        | _, _, _ => outField fl
        end
    end.

  (** filterExprParser.go:459-467 *)
  Definition outFieldWithMath (f : feFieldWithMath) : outcome expr :=
    match fm_type0 f, fm_type1 f with
    | Some t, _ => outType0 t
    | None, Some t => outType1 t
    | None, None => Err
    end.

  (** math.E as a float64. *)
  Definition fe : float := S754_finite false 6121026514868073 (-51).
  (** filterExprParser.go:1099-1109 *)
  Definition outNoArg (f : feNoArg) : outcome expr :=
    match n_name f with
    | None => Err
    | Some n => if isTrue (na_pi n) then Ok (XValue (GFloat fpi)) else if isTrue (na_e n) then Ok (XValue (GFloat fe)) else Err
    end.

  (** filterExprParser.go:1291-1329 *)
  Definition outName1 (f : feOneArgName) : outcome bytes :=
    if isTrue (f NAbs) then Ok (s2b "mathAbs")
    else if isTrue (f NAcos) then Ok (s2b "mathAcos")
    else if isTrue (f NAsin) then Ok (s2b "mathAsin")
    else if isTrue (f NAtan) then Ok (s2b "mathAtan")
    else if isTrue (f NCeil) then Ok (s2b "mathCeil")
    else if isTrue (f NCos) then Ok (s2b "mathCos")
    else if isTrue (f NDate) then Ok (s2b "date")
    else if isTrue (f NDegrees) then Ok (s2b "mathDegrees")
    else if isTrue (f NExp) then Ok (s2b "mathExp")
    else if isTrue (f NFloor) then Ok (s2b "mathFloor")
    else if isTrue (f NLog) then Ok (s2b "mathLog")
    else if isTrue (f NLn) then Ok (s2b "mathLn")
    else if isTrue (f NSin) then Ok (s2b "mathSin")
    else if isTrue (f NTan) then Ok (s2b "mathTan")
    else if isTrue (f NRadians) then Ok (s2b "mathRadians")
    else if isTrue (f NRound) then Ok (s2b "mathRound")
    else if isTrue (f NSqrt) then Ok (s2b "mathSqrt")
    else Err.
  (** filterExprParser.go:1382-1390 *)
  Definition outName2 (f : feTwoArgsName) : outcome bytes :=
    if isTrue (tn_atan2 f) then Ok (s2b "mathAtan2") else if isTrue (tn_pow f) then Ok (s2b "mathPow") else Err.

  (** filterExprParser.go:1061-1085, 1206-1229, 1344-1365, 1145-1155.  The text of a
      function argument matters only if it is a plain value (line 1224). *)
  Fixpoint outConstFunc (f : feConstFunc) : outcome expr :=
    match f with
    | FeConstFunc neg noArg oneArg twoArgs =>
        do e <- match noArg with
                | Some n => outNoArg n
                | None => match oneArg with
                          | Some a => outOneArg a
                          | None => match twoArgs with Some a => outTwoArgs a | None => Err end
                          end
                end;
        Ok (if isTrue neg then XFunc (s2b "mathNegate") [e] else e)
    end
  with outOneArg (f : feOneArg) : outcome expr :=
    match f with
    | FeOneArg (Some name) (Some arg) =>
        do n <- outName1 name; do e <- outArgument arg;
        match arg with
        | FeArgument _ _ (Some v) => if isSet (name NDate) && negb (validTime o (strValue v)) then Err else Ok (XFunc n [e])
        | _ => Ok (XFunc n [e])
        end
    | _ => Err
    end
  with outTwoArgs (f : feTwoArgs) : outcome expr :=
    match f with
    | FeTwoArgs (Some name) (Some a) (Some b) =>
        do n <- outName2 name; do d <- outArgument a; do e <- outArgument b; Ok (XFunc n [d; e])
    | _ => Err
    end
  with outArgument (f : feArgument) : outcome expr :=
    match f with
    | FeArgument sub field value =>
        match value with
        | Some v => outValue v
        | None => match field with
                  | Some m => outFieldWithMath m
                  | None => match sub with Some g => outConstFunc g | None => Err end
                  end
        end
    end.

  (** filterExprParser.go:1183-1192, pcre_wrapper.go:34-36, pcre_wrapper_disabled.go:18-20 *)
  Definition outRegex (f : feArgumentRHS) : outcome expr :=
    match ar_value f with
    | None => Err
    | Some v => if tokenIsPcre (strValue v) then (if x_pcre x then Ok (XPcre (strValue v)) else Err) else Ok (XRegex (strValue v))
    end.

  (** filterExprParser.go:1430-1455; without a name the error text crashes (line 1453). *)
  Definition outBoolTwoArgs (f : feBoolTwoArgs) : outcome expr :=
    match bt_name f with
    | None => Panic
    | Some n =>
        match bt_arg0 f, bt_arg1 f with
        | Some a, Some b => if isTrue (bn_regex n) then do d <- outArgument a; do e <- outRegex b; Ok (XCmp CLike d e) else Err
        | _, _ => Err
        end
    end.

  (** filterExprParser.go:1489-1501 *)
  Definition outExists (f : feExists) : outcome expr :=
    match ex_field f with Some fl => do e <- outField fl; Ok (XExists e) | None => Err end.
  (** filterExprParser.go:1407-1414 *)
  Definition outBooleanFunc (f : feBooleanFunc) : outcome expr :=
    match bf_two f, bf_exists f with
    | Some t, _ => outBoolTwoArgs t
    | None, Some e => outExists e
    | None, None => Err
    end.
  (** filterExprParser.go:305-313 *)
  Definition outBooleanExpr (f : feBooleanExpr) : outcome expr :=
    match be_val f, be_func f with
    | Some b, _ => outBoolean b false
    | None, Some g => outBooleanFunc g
    | None, None => Err
    end.

  (** filterExprParser.go:393-405, 429-441 *)
  Definition outSide (f : feSide) : outcome expr :=
    match sd_field f, sd_value f, sd_func f, sd_bool f with
    | Some m, _, _, _ => outFieldWithMath m
    | None, Some v, _, _ => outValue v
    | None, None, Some g, _ => outConstFunc g
    | None, None, None, Some b => outBoolean b true
    | None, None, None, None => Err
    end.

  (** filterExprParser.go:862-896 *)
  Definition isEqual (f : feCompareOp) : bool :=
    match op_0 f, op_1 f with
    | Some a, None => isSet (oc_eq a)
    | Some a, Some b => isSet (oc_eq a) && isSet (oc_eq b)
    | None, _ => false
    end.
  Definition isNotEqual (f : feCompareOp) : bool :=
    match op_0 f, op_1 f with
    | Some a, Some b => (isSet (oc_not a) && isSet (oc_eq b)) || (isSet (oc_lt a) && isSet (oc_gt b))
    | _, _ => false
    end.
  Definition isGt (f : feCompareOp) : bool := match op_0 f, op_1 f with Some a, None => isSet (oc_gt a) | _, _ => false end.
  Definition isGe (f : feCompareOp) : bool := match op_0 f, op_1 f with Some a, Some b => isSet (oc_gt a) && isSet (oc_eq b) | _, _ => false end.
  Definition isLt (f : feCompareOp) : bool := match op_0 f, op_1 f with Some a, None => isSet (oc_lt a) | _, _ => false end.
  Definition isLe (f : feCompareOp) : bool := match op_0 f, op_1 f with Some a, Some b => isSet (oc_lt a) && isSet (oc_eq b) | _, _ => false end.
  (** filterExprParser.go:926-959 *)
  Definition outCompareOp (f : feCompareOp) (l r : expr) : outcome expr :=
    if isEqual f then Ok (XCmp CEq l r)
    else if isNotEqual f then Ok (XCmp CNe l r)
    else if isGt f then Ok (XCmp CGt l r)
    else if isGe f then Ok (XCmp CGe l r)
    else if isLt f then Ok (XCmp CLt l r)
    else if isLe f then Ok (XCmp CLe l r)
    else Err.
  (** filterExprParser.go:967-993, 1009-1033 *)
  Definition outCheckOp (f : feCheckOp) (e : expr) : outcome expr :=
    if isTrue (ck_not f) && isTrue (ck_missing f) then Ok (XExists e)
    else if negb (isTrue (ck_not f)) && isTrue (ck_missing f) then Ok (XNotExists e)
    else if negb (isTrue (ck_not f)) && isTrue (ck_null f) then Ok (XCmp CEq e (XValue GNil))
    else if isTrue (ck_not f) && isTrue (ck_null f) then Ok (XNot (XCmp CEq e (XValue GNil)))
    else Err.

  (** filterExprParser.go:264-288 *)
  Definition outOperand (f : feOperand) : outcome expr :=
    match o_bool f with
    | Some b => outBooleanExpr b
    | None =>
        match o_lhs f with
        | None => Err
        | Some l =>
            do el <- outSide l;
            match o_check f, o_op f, o_rhs f with
            | Some c, _, _ => outCheckOp c el
            | None, Some p, Some r => do er <- outSide r; outCompareOp p el er
            | None, _, _ => Err
            end
        end
    end.

  (** filterExprParser.go:233-242 *)
  Fixpoint outCondition (f : feCondition) : outcome expr :=
    match f with
    | FeCondition (Some n) _ => do e <- outCondition n; Ok (XNot e)
    | FeCondition None (Some p) => outOperand p
    | FeCondition None None => Err
    end.

  (** filterExprParser.go:87-100, 117-130, 147-155 *)
  Fixpoint outInner (f : feInner) : outcome expr :=
    match f with
    | FeInner [] => Err
    | FeInner l => do es <- (fix go l := match l with [] => Ok [] | a :: r => do e <- outInnerAnd a; do es <- go r; Ok (e :: es) end) l; Ok (XOr es)
    end
  with outInnerAnd (f : feInnerAnd) : outcome expr :=
    match f with
    | FeInnerAnd [] => Err
    | FeInnerAnd l => do es <- (fix go l := match l with [] => Ok [] | a :: r => do e <- outSub a; do es <- go r; Ok (e :: es) end) l; Ok (XAnd es)
    end
  with outSub (f : feSubOrTerm) : outcome expr :=
    match f with
    | FeSubOrTerm (Some s) _ => outInner s
    | FeSubOrTerm None (Some c) => outCondition c
    | FeSubOrTerm None None => Err
    end.

  (** filterExprParser.go:64-70 - [FilterExpression.OutputExpression]. *)
  Definition outputExpression (f : feFilter) : outcome expr :=
    match fe_expr f with Some i => outInner i | None => Err end.
End Text.

(** filterExprParser.go:1536-1545 - [GetFilterExpressionMatcher] once the text has been
    parsed: translate, compile, make a matcher. *)
Definition filterMatcher (o : oracles) (x : textEnv) (f : feFilter) : outcome (matchdef * mst) :=
  do e <- outputExpression o x f; do D <- transform o [e]; Ok (D, newMatcher D).
