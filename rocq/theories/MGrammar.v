(** Model of the grammar in the struct tags of filterExprParser.go and of
    [NewFilterExpressionParser]: from the tokens of a text filter to its tree.

    The tags are interpreted by the participle library, which is not part of the
    repository; the combinators below say how it is read here.  A node either does not
    match, fails after having moved on, or matches.  A disjunction takes the first
    alternative that matches; an alternative that fails more than [l_look] tokens further
    on makes the whole disjunction fail (the library's lookahead, 1 unless told
    otherwise).  Versions differ in whether a disjunction whose alternatives all failed
    nearby fails or does not match ([l_keep]); everything is stated for both.  A quoted
    word in a tag is compared with a token's text, whatever kind the token has.
    Simplifications: error texts are not kept; the library's limit on the number of
    repetitions is not modelled. *)
From Coq Require Import String.
From Verif Require Import Base MTokenizer MLit MFastVal MMath SEvents MExpr MExprJson MTransform MMatcher MText.
From Coq Require Import List NArith ZArith Arith Lia Bool.
From Coq Require Import Floats.SpecFloat.
Import ListNotations.
Open Scope string_scope.
Open Scope nat_scope.

(** The kinds of tokens the tags mention; everything else is single characters. *)
Inductive tkind := KIdent | KInt | KFloat | KChar | KString | KRaw | KOther.
Record token := Tk { tk_kind : tkind; tk_text : bytes }.
Definition kind_eqb (a b : tkind) : bool :=
  match a, b with
  | KIdent, KIdent | KInt, KInt | KFloat, KFloat | KChar, KChar | KString, KString | KRaw, KRaw | KOther, KOther => true
  | _, _ => false
  end.

(** No match; failure, where; match; the bound on recursion was too small. *)
Inductive pres (A : Type) := PNone | PFail (at_ : list token) | POk (a : A) (rest : list token) | PFuel.
Arguments PNone {A}. Arguments PFail {A}. Arguments POk {A}. Arguments PFuel {A}.
Definition parser (A : Type) := list token -> pres A.
Record lib := { l_look : nat; l_keep : bool }.

Definition pmap {A B : Type} (f : A -> B) (p : parser A) : parser B :=
  fun ts => match p ts with POk a r => POk (f a) r | PNone => PNone | PFail r => PFail r | PFuel => PFuel end.
(** One element of a sequence, then the rest, which has to match. *)
Definition pthen {A B : Type} (p : parser A) (k : A -> parser B) : parser B :=
  fun ts =>
    match p ts with
    | POk a r => match k a r with PNone => PFail r | x => x end
    | PNone => PNone
    | PFail r => PFail r
    | PFuel => PFuel
    end.
Definition pret {A : Type} (a : A) : parser A := fun ts => POk a ts.
(** "word" *)
Definition pLit (s : string) : parser unit :=
  fun ts => match ts with t :: r => if bytes_eqb (tk_text t) (s2b s) then POk tt r else PNone | [] => PNone end.
(** Int, String, ... *)
Definition pKind (k : tkind) : parser bytes :=
  fun ts => match ts with t :: r => if kind_eqb (tk_kind t) k then POk (tk_text t) r else PNone | [] => PNone end.
(** @"word" into a *bool *)
Definition pFlag (s : string) : parser (option bool) := pmap (fun _ => Some true) (pLit s).

Section Lib.
  Variable L : lib.
  Definition tooFar (ts r : list token) : bool := l_look L <? length ts - length r.
  (** a | b | ... *)
  Fixpoint pAlts {A : Type} (failed : bool) (ps : list (parser A)) : parser A :=
    fun ts =>
      match ps with
      | [] => if failed && l_keep L then PFail ts else PNone
      | p :: r =>
          match p ts with
          | POk a x => POk a x
          | PNone => pAlts failed r ts
          | PFail x => if tooFar ts x then PFail x else pAlts true r ts
          | PFuel => PFuel
          end
      end.
  Definition pAlt {A : Type} (ps : list (parser A)) : parser A := pAlts false ps.
  (** [ a ] *)
  Definition pOpt {A : Type} (p : parser A) : parser (option A) :=
    fun ts =>
      match p ts with
      | POk a r => POk (Some a) r
      | PNone => POk None ts
      | PFail r => if tooFar ts r then PFail r else POk None ts
      | PFuel => PFuel
      end.
  (** { a } *)
  Fixpoint pReps {A : Type} (n : nat) (p : parser A) : parser (list A) :=
    fun ts =>
      match n with
      | O => PFuel
      | S n' =>
          match p ts with
          | POk a r => pmap (cons a) (pReps n' p) r
          | PNone => POk [] ts
          | PFail r => if tooFar ts r then PFail r else POk [] ts
          | PFuel => PFuel
          end
      end.
  Definition pRep {A : Type} (p : parser A) : parser (list A) := fun ts => pReps (S (length ts)) p ts.
  (** { @"-" } into a *bool: set if there is any. *)
  Definition pMinus : parser (option bool) := pmap (fun l : list unit => match l with [] => None | _ => Some true end) (pRep (pLit "-")).

  (** What conversions of token texts give: strconv.ParseInt(s, 0, 64), strconv.ParseFloat(s, 64). *)
  Variable intOf : bytes -> option Z.
  Variable floatOf : bytes -> option float.

  (** filterExprParser.go:315-320 *)
  Definition pBoolean : parser feBoolean :=
    pAlt [ pmap (fun b => {| b_T := b; b_T1 := None; b_F := None; b_F1 := None |}) (pFlag "TRUE");
           pmap (fun b => {| b_T := None; b_T1 := b; b_F := None; b_F1 := None |}) (pFlag "true");
           pmap (fun b => {| b_T := None; b_T1 := None; b_F := b; b_F1 := None |}) (pFlag "FALSE");
           pmap (fun b => {| b_T := None; b_T1 := None; b_F := None; b_F1 := b |}) (pFlag "false") ].
  (** filterExprParser.go:764-768; a number that cannot be converted fails after it has been read. *)
  Definition pMathValue : parser feMathValue :=
    pthen pMinus (fun neg =>
    pthen (pAlt [ pmap inl (pKind KInt); pmap inr (pKind KFloat) ]) (fun v ts =>
      match v with
      | inl s => match intOf s with Some z => POk {| mv_neg := neg; mv_int := Some z; mv_float := None |} ts | None => PFail ts end
      | inr s => match floatOf s with Some f => POk {| mv_neg := neg; mv_int := None; mv_float := Some f |} ts | None => PFail ts end
      end)).
  (** filterExprParser.go:806-809 *)
  Definition pValue : parser feValue :=
    pAlt [ pmap (fun m => {| v_math := Some m; v_str := None |}) pMathValue;
           pmap (fun s => {| v_math := None; v_str := Some s |}) (pKind KString) ].
  (** filterExprParser.go:617-621 *)
  Definition pStringType : parser feStringType :=
    pAlt [ pmap (fun s => {| st_char := s; st_raw := []; st_ident := [] |}) (pKind KChar);
           pmap (fun s => {| st_char := []; st_raw := s; st_ident := [] |}) (pKind KRaw);
           pmap (fun s => {| st_char := []; st_raw := []; st_ident := s |}) (pKind KIdent) ].
  (** filterExprParser.go:706-708, 694-696, 682-684 *)
  Definition pPathFunc : parser feOnePathFuncExpr :=
    pthen (pmap (fun b => {| pn_meta := b |}) (pFlag "META")) (fun n =>
    pthen (pLit "(") (fun _ => pthen (pLit ")") (fun _ => pret {| pf_noarg := Some {| pa_name := Some n |} |}))).
  (** filterExprParser.go:674-676 *)
  Definition pArrayIndex : parser bytes :=
    pthen (pLit "[") (fun _ => pthen (pKind KInt) (fun i => pthen (pLit "]") (fun _ => pret i))).
  (** filterExprParser.go:635-639 *)
  Definition pOnePath : parser feOnePath :=
    pthen (pAlt [ pmap inl pPathFunc; pmap inr pStringType ]) (fun h =>
    pthen (pRep pArrayIndex) (fun l =>
    pret (match h with
          | inl f => {| p_func := Some f; p_str := None; p_idx := l |}
          | inr s => {| p_func := None; p_str := Some s; p_idx := l |}
          end))).
  (** filterExprParser.go:575-578 *)
  Definition pField : parser feField :=
    pthen pMinus (fun neg =>
    pthen pOnePath (fun a =>
    pthen (pRep (pthen (pLit ".") (fun _ => pOnePath))) (fun l =>
    pret {| f_neg := neg; f_path := a :: l |}))).
  (** filterExprParser.go:724-730 *)
  Definition pMathOp : parser feMathOp :=
    pAlt [ pmap (fun b => {| mo_add := b; mo_sub := None; mo_mul := None; mo_div := None; mo_mod := None |}) (pFlag "+");
           pmap (fun b => {| mo_add := None; mo_sub := b; mo_mul := None; mo_div := None; mo_mod := None |}) (pFlag "-");
           pmap (fun b => {| mo_add := None; mo_sub := None; mo_mul := b; mo_div := None; mo_mod := None |}) (pFlag "*");
           pmap (fun b => {| mo_add := None; mo_sub := None; mo_mul := None; mo_div := b; mo_mod := None |}) (pFlag "/");
           pmap (fun b => {| mo_add := None; mo_sub := None; mo_mul := None; mo_div := None; mo_mod := b |}) (pFlag "%") ].
  (** filterExprParser.go:469-473 *)
  Definition pType0 : parser feType0 :=
    pthen pMathValue (fun v => pthen pMathOp (fun p => pthen pField (fun f =>
    pret {| t0_value := Some v; t0_op := Some p; t0_field := Some f |}))).
  (** filterExprParser.go:513-518; a field set several times keeps the last value. *)
  Definition lastOf {A : Type} (l : list A) : option A := fold_left (fun _ a => Some a) l None.
  Fixpoint lefts {A B : Type} (l : list (A + B)) : list A := match l with [] => [] | inl a :: r => a :: lefts r | inr _ :: r => lefts r end.
  Fixpoint rights {A B : Type} (l : list (A + B)) : list B := match l with [] => [] | inl _ :: r => rights r | inr b :: r => b :: rights r end.
  Definition pType1 : parser feType1 :=
    pthen pField (fun f =>
    pthen (pRep (pthen pMathOp (fun p => pthen (pAlt [ pmap inl pMathValue; pmap inr pField ]) (fun x => pret (p, x))))) (fun l =>
    pret {| t1_field := Some f; t1_op := lastOf (map fst l); t1_value := lastOf (lefts (map snd l)); t1_other := lastOf (rights (map snd l)) |})).
  (** filterExprParser.go:443-447 *)
  Definition pFieldWithMath : parser feFieldWithMath :=
    pAlt [ pmap (fun t => {| fm_type0 := Some t; fm_type1 := None; fm_only := None |}) pType0;
           pmap (fun t => {| fm_type0 := None; fm_type1 := Some t; fm_only := None |}) pType1;
           pmap (fun f => {| fm_type0 := None; fm_type1 := None; fm_only := Some f |}) pField ].
  (** filterExprParser.go:1111-1114, 1087-1089 *)
  Definition pNoArg : parser feNoArg :=
    pthen (pAlt [ pmap (fun b => {| na_pi := b; na_e := None |}) (pFlag "PI"); pmap (fun b => {| na_pi := None; na_e := b |}) (pFlag "E") ]) (fun n =>
    pthen (pLit "(") (fun _ => pthen (pLit ")") (fun _ => pret {| n_name := Some n |}))).
  (** filterExprParser.go:1231-1249 *)
  Definition name1_dec : forall a b : fname1, {a = b} + {a <> b}.
  Proof. decide equality. Defined.
  Definition name1 (f : fname1) (w : string) : parser feOneArgName :=
    pmap (fun b => (fun g => if name1_dec f g then b else None) : feOneArgName) (pFlag w).
  Definition pOneArgName : parser feOneArgName :=
    pAlt [ name1 NAbs "ABS"; name1 NAcos "ACOS"; name1 NAsin "ASIN"; name1 NAtan "ATAN"; name1 NCeil "CEIL"; name1 NCos "COS";
           name1 NDate "DATE"; name1 NDegrees "DEGREES"; name1 NExp "EXP"; name1 NFloor "FLOOR"; name1 NLog "LOG"; name1 NLn "LN";
           name1 NSin "SIN"; name1 NTan "TAN"; name1 NRadians "RADIANS"; name1 NRound "ROUND"; name1 NSqrt "SQRT" ].
  (** filterExprParser.go:1367-1370 *)
  Definition pTwoArgsName : parser feTwoArgsName :=
    pAlt [ pmap (fun b => {| tn_atan2 := b; tn_pow := None |}) (pFlag "ATAN2"); pmap (fun b => {| tn_atan2 := None; tn_pow := b |}) (pFlag "POW") ].
  (** filterExprParser.go:1127-1131, 1194-1197, 1331-1335, 1037-1042; [sub] parses a nested function. *)
  Definition pArgument (sub : parser feConstFunc) : parser feArgument :=
    pAlt [ pmap (fun f => FeArgument (Some f) None None) sub;
           pmap (fun f => FeArgument None (Some f) None) pFieldWithMath;
           pmap (fun v => FeArgument None None (Some v)) pValue ].
  Definition pOneArg (sub : parser feConstFunc) : parser feOneArg :=
    pthen pOneArgName (fun n => pthen (pLit "(") (fun _ => pthen (pArgument sub) (fun a => pthen (pLit ")") (fun _ =>
    pret (FeOneArg (Some n) (Some a)))))).
  Definition pTwoArgs (sub : parser feConstFunc) : parser feTwoArgs :=
    pthen pTwoArgsName (fun n => pthen (pLit "(") (fun _ => pthen (pArgument sub) (fun a => pthen (pLit ",") (fun _ =>
    pthen (pArgument sub) (fun b => pthen (pLit ")") (fun _ => pret (FeTwoArgs (Some n) (Some a) (Some b)))))))).
  Definition pConstFunc1 (sub : parser feConstFunc) : parser feConstFunc :=
    pthen pMinus (fun neg =>
    pAlt [ pmap (fun n => FeConstFunc neg (Some n) None None) pNoArg;
           pmap (fun a => FeConstFunc neg None (Some a) None) (pOneArg sub);
           pmap (fun a => FeConstFunc neg None None (Some a)) (pTwoArgs sub) ]).
  Fixpoint pConstFunc (n : nat) : parser feConstFunc :=
    match n with O => fun _ => PFuel | S m => pConstFunc1 (pConstFunc m) end.
  (** filterExprParser.go:1158-1161 *)
  Definition pArgumentRHS (n : nat) : parser feArgumentRHS :=
    pAlt [ pmap (fun f => {| ar_sub := Some f; ar_value := None |}) (pConstFunc n);
           pmap (fun v => {| ar_sub := None; ar_value := Some v |}) pValue ].
  (** filterExprParser.go:1457-1459, 1416-1420 *)
  Definition pBoolTwoArgs (n : nat) : parser feBoolTwoArgs :=
    pthen (pmap (fun b => {| bn_regex := b |}) (pFlag "REGEXP_CONTAINS")) (fun m => pthen (pLit "(") (fun _ =>
    pthen (pArgument (pConstFunc n)) (fun a => pthen (pLit ",") (fun _ => pthen (pArgumentRHS n) (fun b => pthen (pLit ")") (fun _ =>
    pret {| bt_name := Some m; bt_arg0 := Some a; bt_arg1 := Some b |})))))).
  (** filterExprParser.go:1477-1479 *)
  Definition pExists : parser feExists :=
    pthen (pLit "EXISTS") (fun _ => pthen (pLit "(") (fun _ => pthen pField (fun f => pthen (pLit ")") (fun _ => pret {| ex_field := Some f |})))).
  (** filterExprParser.go:1392-1395 *)
  Definition pBooleanFunc (n : nat) : parser feBooleanFunc :=
    pAlt [ pmap (fun t => {| bf_two := Some t; bf_exists := None |}) (pBoolTwoArgs n); pmap (fun e => {| bf_two := None; bf_exists := Some e |}) pExists ].
  (** filterExprParser.go:290-293 *)
  Definition pBooleanExpr (n : nat) : parser feBooleanExpr :=
    pAlt [ pmap (fun b => {| be_val := Some b; be_func := None |}) pBoolean; pmap (fun f => {| be_val := None; be_func := Some f |}) (pBooleanFunc n) ].
  (** filterExprParser.go:837-842, 857-860 *)
  Definition pOpChar : parser feOpChar :=
    pAlt [ pmap (fun b => {| oc_not := b; oc_eq := None; oc_lt := None; oc_gt := None |}) (pFlag "!");
           pmap (fun b => {| oc_not := None; oc_eq := b; oc_lt := None; oc_gt := None |}) (pFlag "=");
           pmap (fun b => {| oc_not := None; oc_eq := None; oc_lt := b; oc_gt := None |}) (pFlag "<");
           pmap (fun b => {| oc_not := None; oc_eq := None; oc_lt := None; oc_gt := b |}) (pFlag ">") ].
  Definition pCompareOp : parser feCompareOp :=
    pthen pOpChar (fun a => pthen (pOpt pOpChar) (fun b => pret {| op_0 := Some a; op_1 := b |})).
  (** filterExprParser.go:961-965 *)
  Definition pCheckOp : parser feCheckOp :=
    pthen (pLit "IS") (fun _ => pthen (pOpt (pLit "NOT")) (fun n =>
    let neg := match n with Some _ => Some true | None => None end in
    pAlt [ pmap (fun b => {| ck_not := neg; ck_null := b; ck_missing := None |}) (pFlag "NULL");
           pmap (fun b => {| ck_not := neg; ck_null := None; ck_missing := b |}) (pFlag "MISSING") ])).
  (** filterExprParser.go:372-377, 408-413 *)
  Definition sdFunc (n : nat) : parser feSide := pmap (fun f => {| sd_func := Some f; sd_bool := None; sd_field := None; sd_value := None |}) (pConstFunc n).
  Definition sdBool : parser feSide := pmap (fun b => {| sd_func := None; sd_bool := Some b; sd_field := None; sd_value := None |}) pBoolean.
  Definition sdField : parser feSide := pmap (fun f => {| sd_func := None; sd_bool := None; sd_field := Some f; sd_value := None |}) pFieldWithMath.
  Definition sdValue : parser feSide := pmap (fun v => {| sd_func := None; sd_bool := None; sd_field := None; sd_value := Some v |}) pValue.
  Definition pLhs (n : nat) : parser feSide := pAlt [ sdFunc n; sdBool; sdField; sdValue ].
  Definition pRhs (n : nat) : parser feSide := pAlt [ sdFunc n; sdBool; sdValue; sdField ].
  (** filterExprParser.go:244-250 *)
  Definition pOperand (n : nat) : parser feOperand :=
    pAlt [ pmap (fun b => {| o_bool := Some b; o_lhs := None; o_op := None; o_rhs := None; o_check := None |}) (pBooleanExpr n);
           pthen (pLhs n) (fun l =>
           pAlt [ pthen pCompareOp (fun p => pthen (pRhs n) (fun r => pret {| o_bool := None; o_lhs := Some l; o_op := Some p; o_rhs := Some r; o_check := None |}));
                  pmap (fun c => {| o_bool := None; o_lhs := Some l; o_op := None; o_rhs := None; o_check := Some c |}) pCheckOp ]) ].
  (** filterExprParser.go:214-217 *)
  Fixpoint pCondition (n : nat) : parser feCondition :=
    match n with
    | O => fun _ => PFuel
    | S m =>
        pAlt [ pthen (pLit "NOT") (fun _ => pmap (fun c => FeCondition (Some c) None) (pCondition m));
               pmap (fun o => FeCondition None (Some o)) (pOperand n) ]
    end.
  (** filterExprParser.go:132-135, 102-104, 72-74; [sub] parses what is in parentheses. *)
  Definition pSub (n : nat) (sub : parser feInner) : parser feSubOrTerm :=
    pAlt [ pthen (pLit "(") (fun _ => pthen sub (fun i => pthen (pLit ")") (fun _ => pret (FeSubOrTerm (Some i) None))));
           pmap (fun c => FeSubOrTerm None (Some c)) (pCondition n) ].
  Definition pInnerAnd (n : nat) (sub : parser feInner) : parser feInnerAnd :=
    pthen (pSub n sub) (fun a => pthen (pRep (pthen (pLit "AND") (fun _ => pSub n sub))) (fun l => pret (FeInnerAnd (a :: l)))).
  Fixpoint pInner (n : nat) : parser feInner :=
    match n with
    | O => fun _ => PFuel
    | S m => pthen (pInnerAnd n (pInner m)) (fun a => pthen (pRep (pthen (pLit "OR") (fun _ => pInnerAnd n (pInner m)))) (fun l => pret (FeInner (a :: l))))
    end.
  (** filterExprParser.go:52-54, 1503-1528: the whole input has to be used up. *)
  Definition parseTokens (ts : list token) : outcome feFilter :=
    match pInner (S (length ts)) ts with
    | POk i [] => Ok {| fe_expr := Some i |}
    | PFuel => OutOfFuel
    | _ => Err
    end.
End Lib.
