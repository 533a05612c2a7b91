(** Model of the String methods of filterExprParser.go: the text shown for the syntax
    tree of a text filter ([FilterExpression.String]).

    [fmt.Sprintf] with "%v" and string arguments is concatenation.  Calling a method that
    reads a member through a nil pointer is a [Panic]; the methods return no error. *)
From Coq Require Import String.
From Verif Require Import Base MTokenizer MLit MFastVal MExpr MText.
From Coq Require Import List NArith ZArith Arith Lia Bool.
Import ListNotations.
Open Scope nat_scope.

(** strings.Join of the standard library. *)
Fixpoint joined (sep : bytes) (l : list bytes) : bytes :=
  match l with [] => [] | [a] => a | a :: r => a ++ sep ++ joined sep r end.
(** The texts of the elements of a slice, in order. *)
Definition showAll {A : Type} (f : A -> outcome bytes) : list A -> outcome (list bytes) :=
  fix go (l : list A) := match l with [] => Ok [] | a :: r => do s <- f a; do ss <- go r; Ok (s :: ss) end.

Section Print.
  Variable x : textEnv.

  (** filterExprParser.go:322-333 *)
  Definition shBoolean (f : feBoolean) : bytes :=
    if isTrue (b_T f) then s2b "TRUE" ++ s2b "(bool)"
    else if isTrue (b_T1 f) then s2b "true" ++ s2b "(bool)"
    else if isTrue (b_F f) then s2b "FALSE" ++ s2b "(bool)"
    else if isTrue (b_F1 f) then s2b "false" ++ s2b "(bool)"
    else [].

  (** filterExprParser.go:678-680 *)
  Definition shIndex (i : bytes) : bytes := s2b "[" ++ i ++ s2b "]".
  (** filterExprParser.go:641-654; without a function the string is read, nil or not. *)
  Definition shOnePath (f : feOnePath) : outcome bytes :=
    do h <- match p_func f with
            | Some g => Ok (strPathFunc g)
            | None => match p_str f with Some s => Ok (strStringType s) | None => Panic end
            end;
    Ok (joined (s2b " ") (h :: map shIndex (p_idx f))).
  (** filterExprParser.go:580-590 *)
  Definition shField (f : feField) : outcome bytes :=
    do l <- showAll shOnePath (f_path f);
    Ok ((if isSet (f_neg f) then s2b "-" else []) ++ joined (s2b ".") l).

  (** filterExprParser.go:732-746 *)
  Definition shMathOp (f : feMathOp) : bytes :=
    if isSet (mo_add f) then s2b "+"
    else if isSet (mo_sub f) then s2b "-"
    else if isSet (mo_mul f) then s2b "*"
    else if isSet (mo_div f) then s2b "/"
    else if isSet (mo_mod f) then s2b "%"
    else s2b "?? (FEMathArithmeticOp)".
  (** filterExprParser.go:475-485 *)
  Definition shType0 (f : feType0) : outcome bytes :=
    match t0_value f, t0_op f, t0_field f with
    | Some v, Some p, Some fl => do s <- shField fl; Ok (joined (s2b " ") [strMathValue x v; shMathOp p; s])
    | _, _, _ => Ok (s2b "?? (FEFieldWithMathType0)")
    end.
  (** filterExprParser.go:520-534; the second field is shown only where the operator is
      missing, which crashes before that (line 526). *)
  Definition shType1 (f : feType1) : outcome bytes :=
    do a <- match t1_field f with Some fl => do s <- shField fl; Ok [s] | None => Ok [] end;
    do b <- match t1_value f with
            | None => Ok []
            | Some v =>
                match t1_op f, t1_other f with
                | Some p, _ => Ok [shMathOp p; strMathValue x v]
                | None, Some _ => Panic
                | None, None => Ok []
                end
            end;
    Ok (joined (s2b " ") (a ++ b)).
  (** filterExprParser.go:449-457 *)
  Definition shFieldWithMath (f : feFieldWithMath) : outcome bytes :=
    match fm_type0 f, fm_type1 f with
    | Some t, _ => shType0 t
    | None, Some t => shType1 t
    | None, None => Ok (s2b "?? (FEFieldWithMath)")
    end.

  (** filterExprParser.go:1116-1124, 1091-1097 *)
  Definition shNoArgName (f : feNoArgName) : bytes :=
    if isTrue (na_e f) then s2b "E" else if isTrue (na_pi f) then s2b "PI" else s2b "?? (FEConstFuncNoArgName)".
  Definition shNoArg (f : feNoArg) : bytes :=
    match n_name f with Some n => shNoArgName n ++ s2b "()" | None => s2b "?? (FEConstFuncNoArg)" end.
  (** filterExprParser.go:1251-1289 with the names of constants.go:40-59 *)
  Definition shName1 (f : feOneArgName) : bytes :=
    if isTrue (f NAbs) then s2b "ABS"
    else if isTrue (f NAcos) then s2b "ACOS"
    else if isTrue (f NAsin) then s2b "ASIN"
    else if isTrue (f NAtan) then s2b "ATAN"
    else if isTrue (f NCeil) then s2b "CEIL"
    else if isTrue (f NCos) then s2b "COS"
    else if isTrue (f NDate) then s2b "DATE"
    else if isTrue (f NDegrees) then s2b "DEGREES"
    else if isTrue (f NExp) then s2b "EXP"
    else if isTrue (f NFloor) then s2b "FLOOR"
    else if isTrue (f NLog) then s2b "LOG"
    else if isTrue (f NLn) then s2b "LN"
    else if isTrue (f NSin) then s2b "SIN"
    else if isTrue (f NTan) then s2b "TAN"
    else if isTrue (f NRadians) then s2b "RADIANS"
    else if isTrue (f NRound) then s2b "ROUND"
    else if isTrue (f NSqrt) then s2b "SQRT"
    else s2b "?? (FEConstFuncOneArgName)".
  (** filterExprParser.go:1372-1380 *)
  Definition shName2 (f : feTwoArgsName) : bytes :=
    if isTrue (tn_atan2 f) then s2b "ATAN2" else if isTrue (tn_pow f) then s2b "POW" else s2b "?? (FEConstFuncTwoArgsName)".

  (** filterExprParser.go:1044-1059, 1199-1204, 1337-1342, 1133-1143 *)
  Fixpoint shConstFunc (f : feConstFunc) : outcome bytes :=
    match f with
    | FeConstFunc neg noArg oneArg twoArgs =>
        let signed (r : outcome bytes) := do s <- r; Ok ((if isTrue neg then s2b "-" else []) ++ s) in
        match noArg, oneArg, twoArgs with
        | Some n, _, _ => signed (Ok (shNoArg n))
        | None, Some a, _ => signed (shOneArg a)
        | None, None, Some a => signed (shTwoArgs a)
        | None, None, None => Ok (s2b "?? (FEConstFuncExpression)")
        end
    end
  with shOneArg (f : feOneArg) : outcome bytes :=
    match f with
    | FeOneArg (Some n) (Some a) => do s <- shArgument a; Ok (shName1 n ++ s2b "( " ++ s ++ s2b " )")
    | _ => Ok (s2b "?? (FEConstFuncOneArg)")
    end
  with shTwoArgs (f : feTwoArgs) : outcome bytes :=
    match f with
    | FeTwoArgs (Some n) (Some a) (Some b) => do s <- shArgument a; do t <- shArgument b; Ok (shName2 n ++ s2b "( " ++ s ++ s2b " , " ++ t ++ s2b " )")
    | _ => Ok (s2b "?? (FEConstFuncTwoArgs)")
    end
  with shArgument (f : feArgument) : outcome bytes :=
    match f with
    | FeArgument sub field value =>
        match value, sub, field with
        | Some v, _, _ => Ok (strValue x v)
        | None, Some g, _ => shConstFunc g
        | None, None, Some m => shFieldWithMath m
        | None, None, None => Ok (s2b "?? (FEConstFuncArgument)")
        end
    end.
  (** filterExprParser.go:1163-1171 *)
  Definition shArgumentRHS (f : feArgumentRHS) : outcome bytes :=
    match ar_value f, ar_sub f with
    | Some v, _ => Ok (strValue x v)
    | None, Some g => shConstFunc g
    | None, None => Ok (s2b "?? (FEConstFuncArgument)")
    end.

  (** filterExprParser.go:1461-1467, 1422-1428 *)
  Definition shBoolTwoArgsName (f : feBoolTwoArgsName) : bytes :=
    if isTrue (bn_regex f) then s2b "REGEXP_CONTAINS" else s2b "?? (FEBooleanFuncTwoArgsName)".
  Definition shBoolTwoArgs (f : feBoolTwoArgs) : outcome bytes :=
    match bt_name f, bt_arg0 f, bt_arg1 f with
    | Some n, Some a, Some b => do s <- shArgument a; do t <- shArgumentRHS b; Ok (shBoolTwoArgsName n ++ s2b "( " ++ s ++ s2b " , " ++ t ++ s2b " )")
    | _, _, _ => Ok (s2b "?? (FEBooleanFuncTwoArgs)")
    end.
  (** filterExprParser.go:1481-1487 *)
  Definition shExists (f : feExists) : outcome bytes :=
    match ex_field f with
    | Some fl => do s <- shField fl; Ok (s2b "EXISTS" ++ s2b " ( " ++ s ++ s2b " )")
    | None => Ok (s2b "?? (FEExistsClause)")
    end.
  (** filterExprParser.go:1397-1405 *)
  Definition shBooleanFunc (f : feBooleanFunc) : outcome bytes :=
    match bf_two f, bf_exists f with
    | Some t, _ => shBoolTwoArgs t
    | None, Some e => shExists e
    | None, None => Ok (s2b "?? (FEBooleanFuncExpr)")
    end.
  (** filterExprParser.go:295-303 *)
  Definition shBooleanExpr (f : feBooleanExpr) : outcome bytes :=
    match be_val f, be_func f with
    | Some b, _ => Ok (shBoolean b)
    | None, Some g => shBooleanFunc g
    | None, None => Ok (s2b "?? (FEBooleanExpr)")
    end.

  (** filterExprParser.go:379-391, 415-427; they differ in the last text only. *)
  Definition shSide (nothing : bytes) (f : feSide) : outcome bytes :=
    match sd_field f, sd_value f, sd_func f, sd_bool f with
    | Some m, _, _, _ => shFieldWithMath m
    | None, Some v, _, _ => Ok (strValue x v)
    | None, None, Some g, _ => shConstFunc g
    | None, None, None, Some b => Ok (shBoolean b)
    | None, None, None, None => Ok nothing
    end.

  (** filterExprParser.go:844-855 *)
  Definition shOpChar (f : feOpChar) : bytes :=
    if isSet (oc_not f) then s2b "!"
    else if isSet (oc_eq f) then s2b "="
    else if isSet (oc_lt f) then s2b "<"
    else if isSet (oc_gt f) then s2b ">"
    else [].
  (** filterExprParser.go:898-924, constants.go:70-77 *)
  Definition shCompareOp (f : feCompareOp) : bytes :=
    if isEqual f then s2b "="
    else if isNotEqual f then s2b "<>"
    else if isGt f then s2b ">"
    else if isGe f then s2b ">="
    else if isLt f then s2b "<"
    else if isLe f then s2b "<="
    else match op_0 f, op_1 f with
         | None, None => s2b "?? (FECompareOp)"
         | a, b => match a with Some c => shOpChar c | None => [] end ++ match b with Some c => shOpChar c | None => [] end
         end.
  (** filterExprParser.go:995-1007, constants.go:79-82 *)
  Definition shCheckOp (f : feCheckOp) : bytes :=
    if negb (isTrue (ck_not f)) && isTrue (ck_missing f) then s2b "IS MISSING"
    else if isTrue (ck_not f) && isTrue (ck_missing f) then s2b "IS NOT MISSING"
    else if negb (isTrue (ck_not f)) && isTrue (ck_null f) then s2b "IS NULL"
    else if isTrue (ck_not f) && isTrue (ck_null f) then s2b "IS NOT NULL"
    else s2b "?? (FECheckOp)".

  (** filterExprParser.go:252-262 *)
  Definition shOperand (f : feOperand) : outcome bytes :=
    match o_bool f, o_lhs f with
    | Some b, _ => shBooleanExpr b
    | None, Some l =>
        match o_check f, o_op f, o_rhs f with
        | Some c, _, _ => do s <- shSide (s2b "?? (FELhs)") l; Ok (s ++ s2b " " ++ shCheckOp c)
        | None, Some p, Some r => do s <- shSide (s2b "?? (FELhs)") l; do t <- shSide (s2b "?? (FERhs)") r; Ok (s ++ s2b " " ++ shCompareOp p ++ s2b " " ++ t)
        | None, _, _ => Ok (s2b "?? (FEOperand)")
        end
    | None, None => Ok (s2b "?? (FEOperand)")
    end.
  (** filterExprParser.go:219-231 *)
  Fixpoint shCondition (f : feCondition) : outcome bytes :=
    match f with
    | FeCondition (Some n) _ => do s <- shCondition n; Ok (s2b "NOT" ++ s2b " " ++ s)
    | FeCondition None (Some p) => shOperand p
    | FeCondition None None => Ok (s2b "?? (FECondition)")
    end.
  (** filterExprParser.go:76-85, 106-115, 137-145 *)
  Fixpoint shInner (f : feInner) : outcome bytes :=
    match f with FeInner l => do ss <- showAll shInnerAnd l; Ok (joined (s2b " OR ") ss) end
  with shInnerAnd (f : feInnerAnd) : outcome bytes :=
    match f with FeInnerAnd l => do ss <- showAll shSub l; Ok (joined (s2b " AND ") ss) end
  with shSub (f : feSubOrTerm) : outcome bytes :=
    match f with
    | FeSubOrTerm (Some s) _ => do t <- shInner s; Ok (s2b "(" ++ s2b " " ++ t ++ s2b " " ++ s2b ")")
    | FeSubOrTerm None (Some c) => shCondition c
    | FeSubOrTerm None None => Ok (s2b "?? (FESubExprOrTerm)")
    end.

  (** filterExprParser.go:56-62 - [FilterExpression.String]. *)
  Definition filterString (f : feFilter) : outcome bytes :=
    match fe_expr f with Some i => shInner i | None => Ok (s2b "Invalid FilterExpression") end.
End Print.
