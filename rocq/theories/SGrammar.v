(** Specification: the tokens of a text filter as written, and which filters can be
    written so that they are read back. *)
From Coq Require Import String.
From Verif Require Import Base MTokenizer MLit MFastVal MMath MExpr MTransform MText SText MGrammar.
From Coq Require Import List NArith ZArith Arith Lia Bool.
From Coq Require Import Floats.SpecFloat.
Import ListNotations.
Open Scope string_scope.
Open Scope list_scope.
Open Scope nat_scope.

(** ** The tokens of a filter *)
Definition word (s : string) : token := Tk KIdent (s2b s).
Definition sym (s : string) : token := Tk KOther (s2b s).
Definition minus (neg : bool) : list token := if neg then [sym "-"] else [].
Definition aopSym (p : aop) : token := match p with Plus => sym "+" | Minus => sym "-" | Times => sym "*" | Over => sym "/" | Modulo => sym "%" end.
Definition fun1Word (f : fname1) : token :=
  word match f with
       | NAbs => "ABS" | NAcos => "ACOS" | NAsin => "ASIN" | NAtan => "ATAN" | NCeil => "CEIL" | NCos => "COS" | NDate => "DATE"
       | NDegrees => "DEGREES" | NExp => "EXP" | NFloor => "FLOOR" | NLog => "LOG" | NLn => "LN" | NSin => "SIN" | NTan => "TAN"
       | NRadians => "RADIANS" | NRound => "ROUND" | NSqrt => "SQRT"
       end.
Definition boolWord (upper b : bool) : token := word (if upper then (if b then "TRUE" else "FALSE") else (if b then "true" else "false")).
Definition wName (n : name) : list token :=
  match n with NIdent b => [Tk KIdent b] | NRaw b => [Tk KRaw b] | NChar b => [Tk KChar b] | NMeta => [word "META"; sym "("; sym ")"] end.
Definition wIdx (i : bytes) : list token := [sym "["; Tk KInt i; sym "]"].
Definition wSeg (s : seg) : list token := wName (s_name s) ++ flat_map wIdx (s_idx s).
Definition wField (f : field) : list token := minus (fl_neg f) ++ wSeg (fl_first f) ++ flat_map (fun s => sym "." :: wSeg s) (fl_rest f).
(** A comparison operator is written as one or two signs. *)
Definition wCop (p : cop) : list token :=
  match p with
  | OEq d => sym "=" :: (if d then [sym "="] else [])
  | ONe b => if b then [sym "!"; sym "="] else [sym "<"; sym ">"]
  | OLt => [sym "<"] | OLe => [sym "<"; sym "="] | OGt => [sym ">"] | OGe => [sym ">"; sym "="]
  end.

Section Write.
  (** How a float is written. *)
  Variable ftxt : float -> bytes.
  Definition wNum (n : num) : list token :=
    match n with NInt neg z => minus neg ++ [Tk KInt (appendInt z)] | NFloat neg f => minus neg ++ [Tk KFloat (ftxt f)] end.
  Definition wValue (v : value) : list token := match v with VNum n => wNum n | VStr s => [Tk KString s] end.
  Definition wMath (m : fmath) : list token :=
    match m with
    | FPlain f => wField f
    | FNumL n p f => wNum n ++ aopSym p :: wField f
    | FNumR f p n => wField f ++ aopSym p :: wNum n
    | FTwo f p g => wField f ++ aopSym p :: wField g
    end.
  Fixpoint wCall (c : call) : list token :=
    match c with
    | CPi neg => minus neg ++ [word "PI"; sym "("; sym ")"]
    | CE neg => minus neg ++ [word "E"; sym "("; sym ")"]
    | COne neg f a => minus neg ++ fun1Word f :: sym "(" :: wArg a ++ [sym ")"]
    | CAtan2 neg a b => minus neg ++ word "ATAN2" :: sym "(" :: wArg a ++ sym "," :: wArg b ++ [sym ")"]
    | CPow neg a b => minus neg ++ word "POW" :: sym "(" :: wArg a ++ sym "," :: wArg b ++ [sym ")"]
    end
  with wArg (a : arg) : list token := match a with ACall c => wCall c | AField m => wMath m | AValue v => wValue v end.
  Definition wSide (s : side) : list token :=
    match s with SCall c => wCall c | SBool u b => [boolWord u b] | SField m => wMath m | SValue v => wValue v end.
  Definition isNot (neg : bool) : list token := word "IS" :: (if neg then [word "NOT"] else []).
  Definition wBasic (b : tbasic) : list token :=
    match b with
    | BConst u c => [boolWord u c]
    | BRegex a p => word "REGEXP_CONTAINS" :: sym "(" :: wArg a ++ sym "," :: wValue p ++ [sym ")"]
    | BRegexCall a c => word "REGEXP_CONTAINS" :: sym "(" :: wArg a ++ sym "," :: wCall c ++ [sym ")"]
    | BExists f => word "EXISTS" :: sym "(" :: wField f ++ [sym ")"]
    | BCmp l p r => wSide l ++ wCop p ++ wSide r
    | BNull neg l => wSide l ++ isNot neg ++ [word "NULL"]
    | BMissing neg l => wSide l ++ isNot neg ++ [word "MISSING"]
    end.
  Fixpoint wCond (c : cond) : list token := match c with CNot d => word "NOT" :: wCond d | CBasic b => wBasic b end.
  (** OR between conjunctions, AND between terms, parentheses around a filter in a term:
      nothing else groups. *)
  Fixpoint wFilter (f : tfilter) : list token :=
    match f with FOr a l => wConj a ++ (fix go l := match l with [] => [] | c :: r => word "OR" :: wConj c ++ go r end) l end
  with wConj (c : tconj) : list token :=
    match c with FAnd a l => wTerm a ++ (fix go l := match l with [] => [] | t :: r => word "AND" :: wTerm t ++ go r end) l end
  with wTerm (t : tterm) : list token :=
    match t with TParen f => sym "(" :: wFilter f ++ [sym ")"] | TCond c => wCond c end.

  (** ** Which can be read back *)

  (** The first token is none of these words.  (The library compares a word of the
      grammar with any token, also one that was quoted.) *)
  Definition avoids (l : list string) (ts : list token) : bool :=
    match ts with [] => true | t :: _ => negb (existsb (fun s => bytes_eqb (tk_text t) (s2b s)) l) end.
  Definition boolWords := ["TRUE"; "true"; "FALSE"; "false"].
  Definition opSigns := ["!"; "="; "<"; ">"].
  (** Behind a minus sign, or without one, a path does not begin with a quoted minus. *)
  Definition fieldSafe (f : field) : Prop := avoids ["-"] (wSeg (fl_first f)) = true.
  (** A number's text is converted back to the number. *)
  Variable intOf : bytes -> option Z.
  Variable floatOf : bytes -> option float.
  Definition numSafe (n : num) : Prop :=
    match n with
    | NInt _ z => intOf (appendInt z) = Some z /\ appendInt z <> s2b "-"
    | NFloat _ f => floatOf (ftxt f) = Some f /\ ftxt f <> s2b "-"
    end.
  Definition valueSafe (v : value) : Prop := match v with VNum n => numSafe n | VStr _ => True end.
  Definition mathSafe (m : fmath) : Prop :=
    match m with FPlain f => fieldSafe f | FNumL n _ f | FNumR f _ n => numSafe n /\ fieldSafe f | FTwo f _ g => fieldSafe f /\ fieldSafe g end.
  Definition negative (v : value) : bool := match v with VNum (NInt b _) | VNum (NFloat b _) => b | VStr _ => false end.
  Variable look : nat.
  (** With a lookahead of 1 a negative number is not found where a product such as
      [-5 * a] could stand; the string "-" is taken for a sign there. *)
  Definition bareValue (v : value) : Prop := valueSafe v /\ (negative v = true -> 2 <= look) /\ v <> VStr (s2b "-").
  Fixpoint callSafe (c : call) : Prop :=
    match c with CPi _ | CE _ => True | COne _ _ a => argSafe a | CAtan2 _ a b | CPow _ a b => argSafe a /\ argSafe b end
  with argSafe (a : arg) : Prop := match a with ACall c => callSafe c | AField m => mathSafe m | AValue v => bareValue v end.
  (** A left side does not begin like something else. *)
  Definition lhsSafe (s : side) : Prop :=
    avoids ("(" :: "NOT" :: boolWords) (wSide s) = true
    /\ match s with SCall c => callSafe c | SBool _ _ => True | SField m => mathSafe m | SValue v => bareValue v end.
  (** A right side neither continues the operator nor begins with a number times a field,
      and only a boolean is spelled like one. *)
  Definition rhsSafe (p : cop) (s : side) : Prop :=
    (length (wCop p) = 1 -> avoids opSigns (wSide s) = true)
    /\ match s with
       | SCall c => callSafe c
       | SBool _ _ => True
       | SField (FNumL _ _ _) => False
       | SField m => mathSafe m /\ avoids boolWords (wSide s) = true
       | SValue v => valueSafe v /\ avoids boolWords (wSide s) = true
       end.
  Definition basicSafe (b : tbasic) : Prop :=
    match b with
    | BConst _ _ => True
    | BRegex a p => argSafe a /\ valueSafe p
    | BRegexCall a c => argSafe a /\ callSafe c
    | BExists f => fieldSafe f
    | BCmp l p r => lhsSafe l /\ rhsSafe p r
    | BNull _ l | BMissing _ l => lhsSafe l
    end.
End Write.
