(** Specification: text filters as written, the tree the grammar makes of them, and
    their meaning on a document. *)
From Coq Require Import String.
From Verif Require Import Base MTokenizer SJson MLit MFastVal MMath MExpr MTransform SFilter MTree SDoc SSat MText.
From Coq Require Import List NArith ZArith Arith Lia Bool.
From Coq Require Import Floats.SpecFloat.
Import ListNotations.
Open Scope nat_scope.

(** ** Syntax *)

(** [12], [-12], [1.5], [-1.5]: sign and magnitude. *)
Inductive num := NInt (neg : bool) (z : Z) | NFloat (neg : bool) (f : float).
Inductive value := VNum (n : num) | VStr (s : bytes).
(** A name (as identifier, back-quoted, or quoted character), or [META()]; then [[i]]s. *)
Inductive name := NIdent (b : bytes) | NRaw (b : bytes) | NChar (b : bytes) | NMeta.
Record seg := Seg { s_name : name; s_idx : list bytes }.
(** [-a.b[1].c] *)
Record field := Field { fl_neg : bool; fl_first : seg; fl_rest : list seg }.
Inductive aop := Plus | Minus | Times | Over | Modulo.
(** [a], [2 * a], [a + 2], [a - b] *)
Inductive fmath := FPlain (f : field) | FNumL (n : num) (p : aop) (f : field) | FNumR (f : field) (p : aop) (n : num) | FTwo (f : field) (p : aop) (g : field).
(** [PI()], [-ABS(...)], [POW(..., ...)] *)
Inductive call :=
| CPi (neg : bool) | CE (neg : bool)
| COne (neg : bool) (f : fname1) (a : arg)
| CAtan2 (neg : bool) (a b : arg) | CPow (neg : bool) (a b : arg)
with arg := ACall (c : call) | AField (f : fmath) | AValue (v : value).
Inductive side := SCall (c : call) | SBool (upper b : bool) | SField (f : fmath) | SValue (v : value).
(** [=] or [==], [!=] or [<>], [<], [<=], [>], [>=] *)
Inductive cop := OEq (double : bool) | ONe (bang : bool) | OLt | OLe | OGt | OGe.
Inductive tbasic :=
| BConst (upper b : bool)                      (* TRUE, false *)
| BRegex (a : arg) (p : value)                 (* REGEXP_CONTAINS(a, p) *)
| BRegexCall (a : arg) (c : call)              (* REGEXP_CONTAINS(a, ABS(..)) *)
| BExists (f : field)                          (* EXISTS(f) *)
| BCmp (l : side) (p : cop) (r : side)
| BNull (neg : bool) (l : side)                (* l IS [NOT] NULL *)
| BMissing (neg : bool) (l : side).            (* l IS [NOT] MISSING *)
Inductive cond := CNot (c : cond) | CBasic (b : tbasic).
(** [... OR ...], each [... AND ...], each in parentheses or a condition. *)
Inductive tfilter := FOr (first : tconj) (rest : list tconj)
with tconj := FAnd (first : tterm) (rest : list tterm)
with tterm := TParen (f : tfilter) | TCond (c : cond).

(** ** The tree the grammar in the struct tags makes of it: one alternative set. *)
Definition flag (b : bool) : option bool := if b then Some true else None.
Definition tNum (n : num) : feMathValue :=
  match n with
  | NInt neg z => {| mv_neg := flag neg; mv_int := Some z; mv_float := None |}
  | NFloat neg f => {| mv_neg := flag neg; mv_int := None; mv_float := Some f |}
  end.
Definition tValue (v : value) : feValue :=
  match v with VNum n => {| v_math := Some (tNum n); v_str := None |} | VStr s => {| v_math := None; v_str := Some s |} end.
Definition tSeg (s : seg) : feOnePath :=
  match s_name s with
  | NIdent b => {| p_func := None; p_str := Some {| st_char := []; st_raw := []; st_ident := b |}; p_idx := s_idx s |}
  | NRaw b => {| p_func := None; p_str := Some {| st_char := []; st_raw := b; st_ident := [] |}; p_idx := s_idx s |}
  | NChar b => {| p_func := None; p_str := Some {| st_char := b; st_raw := []; st_ident := [] |}; p_idx := s_idx s |}
  | NMeta => {| p_func := Some {| pf_noarg := Some {| pa_name := Some {| pn_meta := Some true |} |} |}; p_str := None; p_idx := s_idx s |}
  end.
Definition tField (f : field) : feField := {| f_neg := flag (fl_neg f); f_path := map tSeg (fl_first f :: fl_rest f) |}.
Definition tAop (p : aop) : feMathOp :=
  let t := Some true in
  match p with
  | Plus => {| mo_add := t; mo_sub := None; mo_mul := None; mo_div := None; mo_mod := None |}
  | Minus => {| mo_add := None; mo_sub := t; mo_mul := None; mo_div := None; mo_mod := None |}
  | Times => {| mo_add := None; mo_sub := None; mo_mul := t; mo_div := None; mo_mod := None |}
  | Over => {| mo_add := None; mo_sub := None; mo_mul := None; mo_div := t; mo_mod := None |}
  | Modulo => {| mo_add := None; mo_sub := None; mo_mul := None; mo_div := None; mo_mod := t |}
  end.
Definition tFmath (m : fmath) : feFieldWithMath :=
  match m with
  | FNumL n p f => {| fm_type0 := Some {| t0_value := Some (tNum n); t0_op := Some (tAop p); t0_field := Some (tField f) |}; fm_type1 := None; fm_only := None |}
  | FPlain f => {| fm_type0 := None; fm_type1 := Some {| t1_field := Some (tField f); t1_op := None; t1_value := None; t1_other := None |}; fm_only := None |}
  | FNumR f p n => {| fm_type0 := None; fm_type1 := Some {| t1_field := Some (tField f); t1_op := Some (tAop p); t1_value := Some (tNum n); t1_other := None |}; fm_only := None |}
  | FTwo f p g => {| fm_type0 := None; fm_type1 := Some {| t1_field := Some (tField f); t1_op := Some (tAop p); t1_value := None; t1_other := Some (tField g) |}; fm_only := None |}
  end.
Definition fname1_dec : forall a b : fname1, {a = b} + {a <> b}.
Proof. decide equality. Defined.
Definition tName1 (f : fname1) : feOneArgName := fun g => if fname1_dec f g then Some true else None.
Fixpoint tCall (c : call) : feConstFunc :=
  match c with
  | CPi neg => FeConstFunc (flag neg) (Some {| n_name := Some {| na_pi := Some true; na_e := None |} |}) None None
  | CE neg => FeConstFunc (flag neg) (Some {| n_name := Some {| na_pi := None; na_e := Some true |} |}) None None
  | COne neg f a => FeConstFunc (flag neg) None (Some (FeOneArg (Some (tName1 f)) (Some (tArg a)))) None
  | CAtan2 neg a b => FeConstFunc (flag neg) None None (Some (FeTwoArgs (Some {| tn_atan2 := Some true; tn_pow := None |}) (Some (tArg a)) (Some (tArg b))))
  | CPow neg a b => FeConstFunc (flag neg) None None (Some (FeTwoArgs (Some {| tn_atan2 := None; tn_pow := Some true |}) (Some (tArg a)) (Some (tArg b))))
  end
with tArg (a : arg) : feArgument :=
  match a with
  | ACall c => FeArgument (Some (tCall c)) None None
  | AField f => FeArgument None (Some (tFmath f)) None
  | AValue v => FeArgument None None (Some (tValue v))
  end.
Definition tBool (upper b : bool) : feBoolean :=
  let t := Some true in
  match upper, b with
  | true, true => {| b_T := t; b_T1 := None; b_F := None; b_F1 := None |}
  | false, true => {| b_T := None; b_T1 := t; b_F := None; b_F1 := None |}
  | true, false => {| b_T := None; b_T1 := None; b_F := t; b_F1 := None |}
  | false, false => {| b_T := None; b_T1 := None; b_F := None; b_F1 := t |}
  end.
Definition tSide (s : side) : feSide :=
  match s with
  | SCall c => {| sd_func := Some (tCall c); sd_bool := None; sd_field := None; sd_value := None |}
  | SBool u b => {| sd_func := None; sd_bool := Some (tBool u b); sd_field := None; sd_value := None |}
  | SField f => {| sd_func := None; sd_bool := None; sd_field := Some (tFmath f); sd_value := None |}
  | SValue v => {| sd_func := None; sd_bool := None; sd_field := None; sd_value := Some (tValue v) |}
  end.
Definition chNot := {| oc_not := Some true; oc_eq := None; oc_lt := None; oc_gt := None |}.
Definition chEq := {| oc_not := None; oc_eq := Some true; oc_lt := None; oc_gt := None |}.
Definition chLt := {| oc_not := None; oc_eq := None; oc_lt := Some true; oc_gt := None |}.
Definition chGt := {| oc_not := None; oc_eq := None; oc_lt := None; oc_gt := Some true |}.
Definition tCop (p : cop) : feCompareOp :=
  match p with
  | OEq d => {| op_0 := Some chEq; op_1 := if d then Some chEq else None |}
  | ONe true => {| op_0 := Some chNot; op_1 := Some chEq |}
  | ONe false => {| op_0 := Some chLt; op_1 := Some chGt |}
  | OLt => {| op_0 := Some chLt; op_1 := None |}
  | OLe => {| op_0 := Some chLt; op_1 := Some chEq |}
  | OGt => {| op_0 := Some chGt; op_1 := None |}
  | OGe => {| op_0 := Some chGt; op_1 := Some chEq |}
  end.
Definition boolOperand (b : feBooleanExpr) : feOperand := {| o_bool := Some b; o_lhs := None; o_op := None; o_rhs := None; o_check := None |}.
Definition boolFunc (f : feBooleanFunc) : feOperand := boolOperand {| be_val := None; be_func := Some f |}.
Definition regexFunc (a : feArgument) (r : feArgumentRHS) : feOperand :=
  boolFunc {| bf_two := Some {| bt_name := Some {| bn_regex := Some true |}; bt_arg0 := Some a; bt_arg1 := Some r |}; bf_exists := None |}.
Definition tBasic (b : tbasic) : feOperand :=
  match b with
  | BConst u c => boolOperand {| be_val := Some (tBool u c); be_func := None |}
  | BRegex a p => regexFunc (tArg a) {| ar_sub := None; ar_value := Some (tValue p) |}
  | BRegexCall a c => regexFunc (tArg a) {| ar_sub := Some (tCall c); ar_value := None |}
  | BExists f => boolFunc {| bf_two := None; bf_exists := Some {| ex_field := Some (tField f) |} |}
  | BCmp l p r => {| o_bool := None; o_lhs := Some (tSide l); o_op := Some (tCop p); o_rhs := Some (tSide r); o_check := None |}
  | BNull neg l => {| o_bool := None; o_lhs := Some (tSide l); o_op := None; o_rhs := None; o_check := Some {| ck_not := flag neg; ck_null := Some true; ck_missing := None |} |}
  | BMissing neg l => {| o_bool := None; o_lhs := Some (tSide l); o_op := None; o_rhs := None; o_check := Some {| ck_not := flag neg; ck_null := None; ck_missing := Some true |} |}
  end.
Fixpoint tCond (c : cond) : feCondition :=
  match c with CNot d => FeCondition (Some (tCond d)) None | CBasic b => FeCondition None (Some (tBasic b)) end.
Fixpoint tFilter (f : tfilter) : feInner := match f with FOr a l => FeInner (tConj a :: map tConj l) end
with tConj (c : tconj) : feInnerAnd := match c with FAnd a l => FeInnerAnd (tTerm a :: map tTerm l) end
with tTerm (t : tterm) : feSubOrTerm :=
  match t with TParen f => FeSubOrTerm (Some (tFilter f)) None | TCond c => FeSubOrTerm None (Some (tCond c)) end.
Definition tree (f : tfilter) : feFilter := {| fe_expr := Some (tFilter f) |}.

(** ** Meaning *)

(** A component names a member; an index is written [[i]]. *)
Definition nameText (n : name) : bytes := match n with NIdent b | NRaw b | NChar b => b | NMeta => s2b "META()" end.
Definition segPath (s : seg) : list bytes := nameText (s_name s) :: map (fun i => [91%N] ++ i ++ [93%N]) (s_idx s).
Definition fieldPath (f : field) : list bytes := flat_map segPath (fl_first f :: fl_rest f).

Definition numVal (n : num) : gval :=
  match n with
  | NInt neg z => GInt (if neg then - z else z)%Z
  | NFloat neg f => GFloat (if neg then SFopp f else f)
  end.
Definition valueVal (v : value) : gval := match v with VNum n => numVal n | VStr s => GString s end.

(** The functions, as the matcher has them. *)
Definition fun1 (f : fname1) (o : oracles) : fastval -> outcome fastval :=
  match f with
  | NAbs => mathAbs o | NAcos => mathFun1 o FAcos | NAsin => mathFun1 o FAsin | NAtan => mathFun1 o FAtan
  | NCeil => mathFun1 o FCeil | NCos => mathFun1 o FCos | NDate => fun v => Ok (plain (dateFunc o (fv v)))
  | NDegrees => mathDegrees o | NExp => mathFun1 o FExp | NFloor => mathFun1 o FFloor | NLog => mathFun1 o FLog | NLn => mathFun1 o FLn
  | NSin => mathFun1 o FSin | NTan => mathFun1 o FTan | NRadians => mathRadiansV o | NRound => mathRound o | NSqrt => mathFun1 o FSqrt
  end.
Definition aopFun (p : aop) (o : oracles) : fastval -> fastval -> outcome fastval :=
  match p with Plus => mathAdd o | Minus => mathSub o | Times => mathMul o | Over => mathDiv o | Modulo => mathMod o end.

(** The fields mentioned. *)
Definition fmathFields (m : fmath) : list field := match m with FPlain f | FNumL _ _ f | FNumR f _ _ => [f] | FTwo f _ g => [f; g] end.
Fixpoint callFields (c : call) : list field :=
  match c with CPi _ | CE _ => [] | COne _ _ a => argFields a | CAtan2 _ a b | CPow _ a b => argFields a ++ argFields b end
with argFields (a : arg) : list field := match a with ACall c => callFields c | AField m => fmathFields m | AValue _ => [] end.
Definition sideFields (s : side) : list field := match s with SCall c => callFields c | SField m => fmathFields m | _ => [] end.

Section Means.
  Variable o : oracles.
  Variable doc : cst.

  Definition const (g : gval) : outcome fastval := constRef o (XValue g).
  Definition negated (neg : bool) (v : outcome fastval) : outcome fastval := if neg then do x <- v; mathNeg o x else v.
  Definition fieldVal (f : field) : outcome fastval :=
    negated (fl_neg f) (match at_ (fieldPath f) doc with Some w => valOf o w | None => Ok (plain VMissing) end).
  Definition fmathVal (m : fmath) : outcome fastval :=
    match m with
    | FPlain f => fieldVal f
    | FNumL n p f => do x <- const (numVal n); do y <- fieldVal f; aopFun p o x y
    | FNumR f p n => do x <- fieldVal f; do y <- const (numVal n); aopFun p o x y
    | FTwo f p g => do x <- fieldVal f; do y <- fieldVal g; aopFun p o x y
    end.
  Fixpoint callVal (c : call) : outcome fastval :=
    match c with
    | CPi neg => negated neg (const (GFloat fpi))
    | CE neg => negated neg (const (GFloat fe))
    | COne neg f a => negated neg (do x <- argVal a; fun1 f o x)
    | CAtan2 neg a b => negated neg (do x <- argVal a; do y <- argVal b; mathFun2 o FAtan2 x y)
    | CPow neg a b => negated neg (do x <- argVal a; do y <- argVal b; mathFun2 o FPow x y)
    end
  with argVal (a : arg) : outcome fastval :=
    match a with ACall c => callVal c | AField m => fmathVal m | AValue v => const (valueVal v) end.
  Definition sideVal (s : side) : outcome fastval :=
    match s with SCall c => callVal c | SBool _ b => const (GBool b) | SField m => fmathVal m | SValue v => const (valueVal v) end.

  (** All these fields are in the document. *)
  Definition there (l : list field) : bool := forallb (fun f => match at_ (fieldPath f) doc with Some _ => true | None => false end) l.
  (** A comparison holds if all its fields are there and the values compare. *)
  Definition compares (k : cmpk) (fs : list field) (l r : outcome fastval) : bool :=
    there fs && match l, r with Ok x, Ok y => cmpHolds o k x y | _, _ => false end.
End Means.

(** A look-around group, which only PCRE has: (?= (?< or (?! up to a closing
    parenthesis on the same line. *)
Definition lookaround (s : bytes) : Prop :=
  exists a d m b, s = (a ++ [40; 63; d]%N ++ m ++ [41]%N ++ b)%list /\ (d = 61 \/ d = 60 \/ d = 33)%N /\ m <> [] /\ ~ In 10%N m.

Section Filter.
  Variable o : oracles.
  Variable x : textEnv.

  (** The pattern's text: a number is printed. *)
  Definition valueText (v : value) : bytes :=
    match v with VStr s => s | VNum n => match numVal n with GInt z => appendInt z | GFloat f => x_fmtV x f | _ => [] end end.
  Definition pattern (v : value) : expr := if tokenIsPcre (valueText v) then XPcre (valueText v) else XRegex (valueText v).

  Variable doc : cst.
  Definition means1 (b : tbasic) : bool :=
    match b with
    | BConst _ c => c
    | BRegex a p => compares o doc CLike (argFields a) (argVal o doc a) (constRef o (pattern p))
    | BRegexCall _ _ => false
    | BExists f => there doc [f]
    | BCmp l p r =>
        let cmp k := compares o doc k (sideFields l ++ sideFields r) (sideVal o doc l) (sideVal o doc r) in
        match p with OEq _ => cmp CEq | ONe _ => negb (cmp CEq) | OLt => cmp CLt | OLe => cmp CLe | OGt => cmp CGt | OGe => cmp CGe end
    | BNull neg l => xorb neg (compares o doc CEq (sideFields l) (sideVal o doc l) (const o GNil))
    | BMissing neg l => xorb neg (negb (there doc (sideFields l)))
    end.
  Fixpoint meansCond (c : cond) : bool := match c with CNot d => negb (meansCond d) | CBasic b => means1 b end.
  Fixpoint means (f : tfilter) : bool := match f with FOr a l => meansConj a || existsb meansConj l end
  with meansConj (c : tconj) : bool := match c with FAnd a l => meansTerm a && forallb meansTerm l end
  with meansTerm (t : tterm) : bool := match t with TParen f => means f | TCond c => meansCond c end.
End Filter.

(** ** Which filters are accepted *)
Section Accept.
  Variable o : oracles.
  Variable x : textEnv.
  (** A valid time: RFC 3339, or one of three date forms. *)
  Definition dateOk (s : bytes) : Prop :=
    (exists z, o_parseRFC3339 o s = Some z) \/ iso8601Year s = true \/ iso8601YearAndMonth s = true \/ iso8601CompleteDate s = true.
  (** DATE of a literal is a valid time. *)
  Fixpoint callOk (c : call) : Prop :=
    match c with
    | CPi _ | CE _ => True
    | COne _ f a => argOk a /\ match f, a with NDate, AValue v => dateOk (valueText x v) | _, _ => True end
    | CAtan2 _ a b | CPow _ a b => argOk a /\ argOk b
    end
  with argOk (a : arg) : Prop := match a with ACall c => callOk c | _ => True end.
  Definition sideOk (s : side) : Prop := match s with SCall c => callOk c | _ => True end.
  (** Look-around patterns need PCRE; patterns are literals. *)
  Definition basicOk (b : tbasic) : Prop :=
    match b with
    | BRegex a p => argOk a /\ (lookaround (valueText x p) -> x_pcre x = true)
    | BRegexCall _ _ => False
    | BCmp l _ r => sideOk l /\ sideOk r
    | BNull _ l | BMissing _ l => sideOk l
    | _ => True
    end.
End Accept.

(** A property of every basic condition. *)
Section AllBasic.
  Variable P : tbasic -> Prop.
  Fixpoint allCond (c : cond) : Prop := match c with CNot d => allCond d | CBasic b => P b end.
  Fixpoint allBasic (f : tfilter) : Prop :=
    match f with FOr a l => allConj a /\ (fix go l := match l with [] => True | c :: r => allConj c /\ go r end) l end
  with allConj (c : tconj) : Prop :=
    match c with FAnd a l => allTerm a /\ (fix go l := match l with [] => True | t :: r => allTerm t /\ go r end) l end
  with allTerm (t : tterm) : Prop := match t with TParen f => allBasic f | TCond c => allCond c end.
End AllBasic.

(** Literals as the scanner reads them: integers without sign below 2^63, floats in
    binary64. *)
Definition numOk (n : num) : Prop := match n with NInt _ z => (0 <= z < 2 ^ 63)%Z | NFloat _ f => valid_binary 53 1024 f = true end.
Definition valueOk (v : value) : Prop := match v with VNum n => numOk n | VStr _ => True end.
Definition fmathOk (m : fmath) : Prop := match m with FNumL n _ _ | FNumR _ _ n => numOk n | _ => True end.
Fixpoint callLits (c : call) : Prop := match c with CPi _ | CE _ => True | COne _ _ a => argLits a | CAtan2 _ a b | CPow _ a b => argLits a /\ argLits b end
with argLits (a : arg) : Prop := match a with ACall c => callLits c | AField m => fmathOk m | AValue v => valueOk v end.
Definition sideLits (s : side) : Prop := match s with SCall c => callLits c | SBool _ _ => True | SField m => fmathOk m | SValue v => valueOk v end.
Definition basicLits (b : tbasic) : Prop :=
  match b with
  | BRegex a p => argLits a /\ valueOk p
  | BRegexCall a c => argLits a /\ callLits c
  | BCmp l _ r => sideLits l /\ sideLits r
  | BNull _ l | BMissing _ l => sideLits l
  | _ => True
  end.

(** ** Filters and documents the matcher answers correctly *)

(** The fields of a condition; those below arithmetic, a minus sign or a function. *)
Definition basicFields (b : tbasic) : list field :=
  match b with
  | BConst _ _ | BRegexCall _ _ => []
  | BRegex a _ => argFields a
  | BExists f => [f]
  | BCmp l _ r => sideFields l ++ sideFields r
  | BNull _ l | BMissing _ l => sideFields l
  end.
Definition fieldWork (f : field) : list field := if fl_neg f then [f] else [].
Definition fmathWork (m : fmath) : list field := match m with FPlain f => fieldWork f | _ => fmathFields m end.
Definition argWork (a : arg) : list field := match a with AField m => fmathWork m | _ => argFields a end.
Definition sideWork (s : side) : list field := match s with SField m => fmathWork m | _ => sideFields s end.
Definition workFields (b : tbasic) : list field :=
  match b with
  | BConst _ _ | BRegexCall _ _ => []
  | BRegex a _ => argWork a
  | BExists f => fieldWork f
  | BCmp l _ r => sideWork l ++ sideWork r
  | BNull _ l | BMissing _ l => sideWork l
  end.

(** No division and no modulo (they crash on zero). *)
Definition noDiv (p : aop) : Prop := match p with Over | Modulo => False | _ => True end.
Definition fmathRun (m : fmath) : Prop := match m with FPlain _ => True | FNumL _ p _ | FNumR _ p _ | FTwo _ p _ => noDiv p end.
Fixpoint callRun (c : call) : Prop :=
  match c with CPi _ | CE _ => True | COne _ _ a => argRun a | CAtan2 _ a b | CPow _ a b => argRun a /\ argRun b end
with argRun (a : arg) : Prop := match a with ACall c => callRun c | AField m => fmathRun m | AValue _ => True end.
Definition sideRun (s : side) : Prop := match s with SCall c => callRun c | SField m => fmathRun m | _ => True end.

(** Filters that build: patterns compile, and within one condition no field path
    extends another. *)
Definition basicBuilds (o : oracles) (x : textEnv) (b : tbasic) : Prop :=
  match b with
  | BRegex _ p =>
      (lookaround (valueText x p) -> o_pcreCompiles o (valueText x p) = true)
      /\ (~ lookaround (valueText x p) -> o_regexCompiles o (valueText x p) = true)
  | _ => True
  end
  /\ prefix_free (map fieldPath (basicFields b)).
(** Filters that run: neither the constant TRUE nor a division. *)
Definition basicRun (b : tbasic) : Prop :=
  match b with
  | BConst _ c => c = false
  | BRegex a _ => argRun a
  | BRegexCall _ _ => False
  | BExists _ => True
  | BCmp l _ r => sideRun l /\ sideRun r
  | BNull _ l | BMissing _ l => sideRun l
  end.

(** The fields mentioned are not empty arrays or objects; a condition without fields
    needs a document with members; a condition on several fields needs those below
    arithmetic, a minus sign or a function to be there. *)
Definition fits (doc : cst) (b : tbasic) : Prop :=
  match b with BConst _ _ => True | _ =>
    (forall f, In f (basicFields b) -> filled doc (fieldPath f))
    /\ (basicFields b = [] -> emptyC doc = false)
    /\ (two (map fieldPath (basicFields b)) -> forall f, In f (workFields b) -> at_ (fieldPath f) doc <> None)
  end.
