(** Model of fastval.go, fastval_date.go: values, conversions, comparison.

    Simplifications: a [FastVal] is one constructor per data type carrying what
    the constructor functions of fastval.go:980-1121 store, plus the user-defined
    flag; 64-bit integers are mathematical integers kept in range; floats are the
    standard library's [spec_float] (IEEE binary64); a time is its instant.

    Calls into Go's standard library whose results are not computed here are
    collected in [oracles]; every theorem is for all of them. *)
From Verif Require Import Base MTokenizer MLit.
From Coq Require Import String.
From Coq Require Import List NArith ZArith Arith Lia Bool.
From Coq Require Import Floats.SpecFloat.
From Coq Require Import Decimal.
Import ListNotations.
Open Scope Z_scope.

Notation float := spec_float.

(** Single-argument functions of Go's math package used by the code. *)
Inductive mfun1 := FSqrt | FAcos | FAsin | FAtan | FCos | FSin | FTan | FExp | FLn | FLog | FCeil | FFloor.
Inductive mfun2 := FPow | FAtan2.

Record oracles := {
  (** strconv.ParseFloat(s, 64): value and err == nil *)
  o_parseFloat : bytes -> float * bool;
  (** strconv.AppendFloat(nil, f, 'E', -1, 64) *)
  o_fmtE : float -> bytes;
  (** strconv.IsPrint *)
  o_isPrint : N -> bool;
  (** whether this Go version quotes DEL as \x7f (otherwise as \u007f) *)
  o_delX : bool;
  (** time.Parse(time.RFC3339, s): the instant, or failure *)
  o_parseRFC3339 : bytes -> option Z;
  (** float to int64 / uint64 conversion when out of range *)
  o_f2i : float -> Z;
  o_f2u : float -> Z;
  o_fun1 : mfun1 -> float -> float;
  o_fun2 : mfun2 -> float -> float -> float;
  (** Match of the compiled regular expressions (Go and PCRE), by identity *)
  o_regex : bytes -> bytes -> bool;
  o_pcre : bytes -> bytes -> bool;
  (** regexp.Compile / MakePcreWrapper succeed *)
  o_regexCompiles : bytes -> bool;
  o_pcreCompiles : bytes -> bool
}.

(** fastval.go:16-46 - value types, in comparison order. *)
Inductive vtype :=
| InvalidValue | MissingValue | NullValue | FalseValue | TrueValue
| UintValue | JsonUintValue | IntValue | JsonIntValue | FloatValue | JsonFloatValue
| StringValue | BinStringValue | JsonStringValue | TimeValue | ArrayValue | ObjectValue
| BinaryValue | RegexValue | PcreValue.

Definition vrank (t : vtype) : Z :=
  match t with
  | InvalidValue => 0 | MissingValue => 1 | NullValue => 2 | FalseValue => 3 | TrueValue => 4
  | UintValue => 5 | JsonUintValue => 6 | IntValue => 7 | JsonIntValue => 8
  | FloatValue => 9 | JsonFloatValue => 10
  | StringValue => 11 | BinStringValue => 12 | JsonStringValue => 13
  | TimeValue => 14 | ArrayValue => 15 | ObjectValue => 16
  | BinaryValue => 17 | RegexValue => 18 | PcreValue => 19
  end.

Definition vtype_eqb (a b : vtype) : bool := vrank a =? vrank b.

(** fastval.go:92-98 - the contents of a value.  A regular expression is the
    source text it was compiled from. *)
Inductive fval :=
| VInvalid | VMissing | VNull | VFalse | VTrue
| VUint (n : Z) | VJsonUint (b : bytes) | VInt (z : Z) | VJsonInt (b : bytes)
| VFloat (f : float) | VJsonFloat (b : bytes)
| VString (s : bytes) | VBinString (b : bytes) | VJsonString (b : bytes)
| VTime (t : Z) | VArray (b : bytes) | VObject (b : bytes) | VBinary (b : bytes)
| VRegex (r : bytes) | VPcre (r : bytes).

Record fastval := FV { fv : fval; userDefined : bool }.

(** NewXxxFastVal, fastval.go:980-1121: not user defined. *)
Definition plain (v : fval) : fastval := FV v false.

Definition dataType (v : fval) : vtype :=
  match v with
  | VInvalid => InvalidValue | VMissing => MissingValue | VNull => NullValue
  | VFalse => FalseValue | VTrue => TrueValue
  | VUint _ => UintValue | VJsonUint _ => JsonUintValue
  | VInt _ => IntValue | VJsonInt _ => JsonIntValue
  | VFloat _ => FloatValue | VJsonFloat _ => JsonFloatValue
  | VString _ => StringValue | VBinString _ => BinStringValue | VJsonString _ => JsonStringValue
  | VTime _ => TimeValue | VArray _ => ArrayValue | VObject _ => ObjectValue
  | VBinary _ => BinaryValue | VRegex _ => RegexValue | VPcre _ => PcreValue
  end.

(** The sliceData field; nil for constructors that do not set it. *)
Definition sliceData (v : fval) : bytes :=
  match v with
  | VJsonUint b | VJsonInt b | VJsonFloat b | VBinString b | VJsonString b
  | VArray b | VObject b | VBinary b => b
  | _ => []
  end.

(** fastval.go:151-202 - type predicates. *)
Definition isMissing (v : fval) : bool := match v with VMissing => true | _ => false end.
Definition isNull (v : fval) : bool := match v with VNull => true | _ => false end.
Definition isInt (v : fval) : bool := match v with VInt _ | VJsonInt _ => true | _ => false end.
Definition isUInt (v : fval) : bool := match v with VUint _ | VJsonUint _ => true | _ => false end.
Definition isFloat (v : fval) : bool := match v with VFloat _ | VJsonFloat _ => true | _ => false end.
Definition isNumeric (v : fval) : bool := isInt v || isUInt v || isFloat v.
Definition isString (v : fval) : bool :=
  match v with VString _ | VBinString _ | VJsonString _ => true | _ => false end.

(** ** strconv *)

Definition maxInt64 : Z := 2 ^ 63 - 1.
Definition minInt64 : Z := - 2 ^ 63.
Definition maxUint64 : Z := 2 ^ 64 - 1.
Definition wrapU64 (z : Z) : Z := z mod 2 ^ 64.

Definition allDigits (l : bytes) : bool := forallb isDigit l.
Fixpoint decVal (acc : Z) (l : bytes) : Z :=
  match l with
  | [] => acc
  | c :: r => decVal (10 * acc + (Z.of_N c - 48)) r
  end.

(** strconv.ParseUint(s, 10, 64): value and err == nil. *)
Definition parseUint10 (l : bytes) : Z * bool :=
  match l with
  | [] => (0, false)
  | _ :: _ =>
      if allDigits l then
        let v := decVal 0 l in if v <=? maxUint64 then (v, true) else (maxUint64, false)
      else (0, false)
  end.

(** strconv.ParseInt(s, 10, 64): value and err == nil. *)
Definition parseInt10 (l : bytes) : Z * bool :=
  match l with
  | [] => (0, false)
  | c :: r =>
      let neg := (c =? 45)%N in
      let body := if (c =? 43)%N || neg then r else l in
      match body with
      | [] => (0, false)
      | _ :: _ =>
          if allDigits body then
            let v := decVal 0 body in
            if neg then if v <=? 2 ^ 63 then (- v, true) else (minInt64, false)
            else if v <=? maxInt64 then (v, true) else (maxInt64, false)
          else (0, false)
      end
  end.

(** Decimal digits, as strconv.AppendUint/AppendInt write them. *)
Fixpoint uint_bytes (u : Decimal.uint) : bytes :=
  match u with
  | Nil => []
  | D0 r => 48%N :: uint_bytes r | D1 r => 49%N :: uint_bytes r | D2 r => 50%N :: uint_bytes r
  | D3 r => 51%N :: uint_bytes r | D4 r => 52%N :: uint_bytes r | D5 r => 53%N :: uint_bytes r
  | D6 r => 54%N :: uint_bytes r | D7 r => 55%N :: uint_bytes r | D8 r => 56%N :: uint_bytes r
  | D9 r => 57%N :: uint_bytes r
  end.
Definition appendUint (n : Z) : bytes := uint_bytes (N.to_uint (Z.to_N n)).
Definition appendInt (z : Z) : bytes :=
  if z <? 0 then 45%N :: appendUint (- z) else appendUint z.

(** utf8.DecodeRune (standard library): rune and width; an invalid encoding is
    U+FFFD with width 1. *)
Definition cont (c lo hi : N) : bool := ((lo <=? c) && (c <=? hi))%N.
Definition decodeRune (l : bytes) : N * nat :=
  match l with
  | [] => (65533%N, 0%nat)
  | a :: r =>
      if (a <? 128)%N then (a, 1%nat)
      else
        let bad := (65533%N, 1%nat) in
        if ((194 <=? a) && (a <=? 223))%N then
          match r with
          | b :: _ => if cont b 128 191 then (((a - 192) * 64 + (b - 128))%N, 2%nat) else bad
          | _ => bad
          end
        else if ((224 <=? a) && (a <=? 239))%N then
          match r with
          | b :: c :: _ =>
              let lo := if (a =? 224)%N then 160%N else 128%N in
              let hi := if (a =? 237)%N then 159%N else 191%N in
              if cont b lo hi && cont c 128 191
              then (((a - 224) * 4096 + (b - 128) * 64 + (c - 128))%N, 3%nat) else bad
          | _ => bad
          end
        else if ((240 <=? a) && (a <=? 244))%N then
          match r with
          | b :: c :: d :: _ =>
              let lo := if (a =? 240)%N then 144%N else 128%N in
              let hi := if (a =? 244)%N then 143%N else 191%N in
              if cont b lo hi && cont c 128 191 && cont d 128 191
              then (((a - 240) * 262144 + (b - 128) * 4096 + (c - 128) * 64 + (d - 128))%N, 4%nat) else bad
          | _ => bad
          end
        else bad
  end.

Definition hexDigit (k : N) : N := if (k <? 10)%N then (48 + k)%N else (87 + k)%N.

(** strconv's appendEscapedRune (standard library), double quotes, not ASCII-only. *)
Definition escapedRune (o : oracles) (r : N) : bytes :=
  if (r =? 34)%N || (r =? 92)%N then [92%N; r]
  else if o_isPrint o r then encodeRune r
  else if (r =? 7)%N then [92; 97]%N
  else if (r =? 8)%N then [92; 98]%N
  else if (r =? 12)%N then [92; 102]%N
  else if (r =? 10)%N then [92; 110]%N
  else if (r =? 13)%N then [92; 114]%N
  else if (r =? 9)%N then [92; 116]%N
  else if (r =? 11)%N then [92; 118]%N
  else if (r <? 32)%N || (o_delX o && (r =? 127)%N) then [92%N; 120%N; hexDigit (r / 16); hexDigit (r mod 16)]
  else if (r <? 65536)%N then
    [92%N; 117%N; hexDigit (r / 4096); hexDigit ((r / 256) mod 16); hexDigit ((r / 16) mod 16); hexDigit (r mod 16)]
  else
    [92%N; 85%N; hexDigit (r / 268435456); hexDigit ((r / 16777216) mod 16); hexDigit ((r / 1048576) mod 16);
     hexDigit ((r / 65536) mod 16); hexDigit ((r / 4096) mod 16); hexDigit ((r / 256) mod 16);
     hexDigit ((r / 16) mod 16); hexDigit (r mod 16)].

(** strconv.AppendQuote(nil, s) without the surrounding quotes. *)
Fixpoint quoteBody (o : oracles) (fuel : nat) (l : bytes) : bytes :=
  match fuel, l with
  | _, [] => []
  | O, _ => []
  | S f, a :: r =>
      let '(ru, w) := decodeRune l in
      if (128 <=? a)%N && Nat.eqb w 1 && (ru =? 65533)%N
      then [92%N; 120%N; hexDigit (a / 16); hexDigit (a mod 16)] ++ quoteBody o f r
      else escapedRune o ru ++ quoteBody o f (skipn w l)
  end.
Definition quote (o : oracles) (l : bytes) : bytes := quoteBody o (length l) l.

(** ** Floats *)

Definition fadd := SFadd 53 1024.
Definition fsub := SFsub 53 1024.
Definition fmul := SFmul 53 1024.
Definition fdiv := SFdiv 53 1024.
Definition Z2f (z : Z) : float := binary_normalize 53 1024 z 0 false.
Definition fltb : float -> float -> bool := SFltb.
Definition isNaN (f : float) : bool := match f with S754_nan => true | _ => false end.

(** 0.0000001 and 0.5 as binary64. *)
Definition EPSILON : float := S754_finite false 7555786372591432 (-76).
Definition fhalf : float := S754_finite false 4503599627370496 (-53).

(** Truncation towards zero of a finite float. *)
Definition truncF (f : float) : option Z :=
  match f with
  | S754_zero _ => Some 0
  | S754_finite s m e =>
      let a := if 0 <=? e then Zpos m * 2 ^ e else Zpos m / 2 ^ (- e) in
      Some (if s then - a else a)
  | _ => None
  end.

(** Go's int64(f) and uint64(f): truncation when the result fits, otherwise
    implementation-defined. *)
Definition f2i (o : oracles) (f : float) : Z :=
  match truncF f with
  | Some z => if (minInt64 <=? z) && (z <=? maxInt64) then z else wrap64 (o_f2i o f)
  | None => wrap64 (o_f2i o f)
  end.
Definition f2u (o : oracles) (f : float) : Z :=
  match truncF f with
  | Some z => if (0 <=? z) && (z <=? maxUint64) then z else wrapU64 (o_f2u o f)
  | None => wrapU64 (o_f2u o f)
  end.

(** ** Dates: fastval_date.go *)

Definition dig (c : N) : bool := isDigit c.
Definition sep (c : N) : bool := ((c =? 45) || (c =? 32) || (c =? 47) || (c =? 46))%N.
(** [^(19|20)\d\d] *)
Definition isYear (a b c d : N) : bool :=
  (((a =? 49) && (b =? 57)) || ((a =? 50) && (b =? 48)))%N && dig c && dig d.
(** [(0[1-9]|1[012])] *)
Definition isMonth (a b : N) : bool :=
  (((a =? 48) && (49 <=? b) && (b <=? 57)) || ((a =? 49) && (48 <=? b) && (b <=? 50)))%N.
(** [(0[1-9]|[12][0-9]|3[01])] *)
Definition isDay (a b : N) : bool :=
  (((a =? 48) && (49 <=? b) && (b <=? 57)) || (((a =? 49) || (a =? 50)) && dig b)
   || ((a =? 51) && ((b =? 48) || (b =? 49))))%N.

(** fastval_date.go:9-11. *)
Definition iso8601Year (l : bytes) : bool :=
  match l with [a; b; c; d] => isYear a b c d | _ => false end.
Definition iso8601YearAndMonth (l : bytes) : bool :=
  match l with [a; b; c; d; s; e; f] => isYear a b c d && sep s && isMonth e f | _ => false end.
Definition iso8601CompleteDate (l : bytes) : bool :=
  match l with
  | [a; b; c; d; s; e; f; s2; g; h] => isYear a b c d && sep s && isMonth e f && sep s2 && isDay g h
  | _ => false
  end.

(** fastval_date.go:24-33. *)
Definition isoToRfc (l : bytes) : bytes :=
  if iso8601Year l then l ++ s2b "-01-01T00:00:00Z"
  else if iso8601YearAndMonth l then l ++ s2b "-01T00:00:00Z"
  else if iso8601CompleteDate l then l ++ s2b "T00:00:00Z"
  else l.

(** fastval_date.go:17 - the second half: [(([0-1][0-9]|[2][0-3]):[0-5][0-9]:[0-5][0-9])]. *)
Definition isClock (l : bytes) : bool :=
  match l with
  | [a; b; c1; c; d; c2; e; f] =>
      ((((a =? 48) || (a =? 49)) && dig b) || ((a =? 50) && (48 <=? b) && (b <=? 51)))%N
      && (c1 =? 58)%N && (48 <=? c)%N && (c <=? 53)%N && dig d
      && (c2 =? 58)%N && (48 <=? e)%N && (e <=? 53)%N && dig f
  | _ => false
  end.
Fixpoint dropSpaces (l : bytes) : bytes :=
  match l with 32%N :: r => dropSpaces r | _ => l end.
(** fastval_date.go:17 - cbSampleDateFormat: the date and the time of day. *)
Definition cbSampleDate (l : bytes) : option (bytes * bytes) :=
  let d := firstn 10 l in
  match skipn 10 l with
  | 32%N :: r => if iso8601CompleteDate d && isClock (dropSpaces r) then Some (d, dropSpaces r) else None
  | _ => None
  end.

(** fastval_date.go:35-81 - [FastValDateFunc]. *)
Definition dateFunc (o : oracles) (v : fval) : fval :=
  match v with
  | VTime _ => v
  | VJsonString b | VBinString b =>
      let str :=
        if iso8601Year b then b ++ s2b "-01-01T00:00:00Z"
        else if iso8601YearAndMonth b then b ++ s2b "-01T00:00:00Z"
        else if iso8601CompleteDate b then b ++ s2b "T00:00:00Z"
        else match cbSampleDate b with
             | Some (d, t) => d ++ s2b "T" ++ t ++ s2b "Z"
             | None => b
             end in
      match o_parseRFC3339 o str with Some t => VTime t | None => VInvalid end
  | VString s => match o_parseRFC3339 o (isoToRfc s) with Some t => VTime t | None => VInvalid end
  | _ => VInvalid
  end.

(** fastval_date.go:83-90 - [GetNewTimeFastVal]. *)
Definition getNewTime (o : oracles) (l : bytes) : option Z := o_parseRFC3339 o (isoToRfc l).

(** ** Conversions *)

(** fastval.go:220-252 - [AsInt]. *)
Definition asInt (o : oracles) (v : fval) : Z * bool :=
  match v with
  | VInt z => (z, true)
  | VUint n => (wrap64 n, n <=? maxInt64)
  | VFloat f => (f2i o f, false)
  | VBinString b | VJsonString b | VJsonInt b => parseInt10 b
  | VJsonUint b =>
      let '(p, ok) := parseUint10 b in
      if ok && (maxInt64 <? p) then (0, false) else (wrap64 p, ok)
  | VJsonFloat b => (f2i o (fst (o_parseFloat o b)), false)
  | VTrue => (1, true)
  | VFalse => (0, true)
  | _ => (0, false)
  end.

(** fastval.go:254-292 - [AsUint]. *)
Definition asUint (o : oracles) (v : fval) : Z * bool :=
  match v with
  | VInt z => if 0 <? z then (z, true) else (0, false)
  | VUint n => (n, true)
  | VFloat f => (f2u o f, false)
  | VJsonInt b => let '(p, ok) := parseInt10 b in if ok && (0 <? p) then (p, true) else (0, false)
  | VBinString b | VJsonString b | VJsonUint b => parseUint10 b
  | VJsonFloat b => let '(f, ok) := o_parseFloat o b in (f2u o f, ok)
  | VTrue => (1, true)
  | VFalse => (0, true)
  | _ => (0, false)
  end.

(** fastval.go:294-319 - [AsFloat]. *)
Definition asFloat (o : oracles) (v : fval) : float * bool :=
  match v with
  | VInt z => (Z2f z, true)
  | VUint n => (Z2f n, true)
  | VFloat f => (f, true)
  | VJsonInt b => let '(p, ok) := parseInt10 b in (Z2f p, ok)
  | VJsonUint b => let '(p, ok) := parseUint10 b in (Z2f p, ok)
  | VJsonString b | VJsonFloat b => o_parseFloat o b
  | VTrue => (Z2f 1, true)
  | VFalse => (Z2f 0, true)
  | _ => (Z2f 0, false)
  end.

(** fastval.go:87-88 - the regular expressions for "true" and "false"; note the
    bars inside the brackets. *)
Definition ci (c u l : N) : bool := ((c =? u) || (c =? 124) || (c =? l))%N.
Definition trueStringRegex (l : bytes) : bool :=
  match l with [a; b; c; d] => ci a 84 116 && ci b 82 114 && ci c 85 117 && ci d 69 101 | _ => false end.
Definition falseStringRegex (l : bytes) : bool :=
  match l with
  | [a; b; c; d; e] => ci a 70 102 && ci b 65 97 && ci c 76 108 && ci d 83 115 && ci e 69 101
  | _ => false
  end.

Definition fIsZero (f : float) : bool := match f with S754_zero _ => true | _ => false end.

(** fastval.go:321-354 - [AsBoolean]. *)
Definition asBoolean (o : oracles) (v : fval) : bool * bool :=
  match v with
  | VJsonString b =>
      if trueStringRegex b then (true, true)
      else if falseStringRegex b then (false, true) else (false, false)
  | VInt z => (negb (z =? 0), true)
  | VUint n => (negb (n =? 0), true)
  | VFloat f => (negb (fIsZero f), true)
  | VJsonInt b => let '(p, ok) := parseInt10 b in (negb (p =? 0), ok)
  | VJsonUint b => let '(p, ok) := parseUint10 b in (negb (p =? 0), ok)
  | VJsonFloat b => let '(f, ok) := o_parseFloat o b in (negb (fIsZero f), ok)
  | VTrue => (true, true)
  | VFalse => (false, true)
  | _ => (true, false)
  end.

(** fastval.go:395-410 - [AsTime]. *)
Definition asTime (o : oracles) (v : fval) : option Z :=
  match v with
  | VTime t => Some t
  | VString _ | VBinString _ | VJsonString _ => getNewTime o (sliceData v)
  | _ => None
  end.

(** fastval.go:452-473 - [ToJsonString]: value and err == nil. *)
Definition toJsonString (o : oracles) (v : fval) : fval * bool :=
  match v with
  | VString s => (VJsonString (quote o s), true)
  | VBinString b => (VJsonString (quote o b), true)
  | VJsonString _ => (v, true)
  | VTrue => (VJsonString (s2b "true"), true)
  | VFalse => (VJsonString (s2b "false"), true)
  | VNull => (VInvalid, false)
  | _ => (v, false)
  end.

(** fastval.go:429-450 - [toJsonStringInternal], its result; the package-level
    buffer it writes is modelled in MShared.v. *)
Definition toJsonStringInternal (o : oracles) (v : fval) : fval * bool :=
  let '(w, ok) := toJsonString o v in
  if ok then (w, true)
  else match w with
       | VUint n => (VJsonString (appendUint n), true)
       | VInt z => (VJsonString (appendInt z), true)
       | VFloat f => (VJsonString (o_fmtE o f), true)
       | _ => (w, false)
       end.

(** ** Comparison *)

Definition cmpZ (a b : Z) : Z := if a <? b then -1 else if b <? a then 1 else 0.

(** strings.Compare. *)
Fixpoint cmpBytes (a b : bytes) : Z :=
  match a, b with
  | [], [] => 0
  | [], _ => -1
  | _, [] => 1
  | x :: a', y :: b' => if (x <? y)%N then -1 else if (y <? x)%N then 1 else cmpBytes a' b'
  end.

(** fastval.go:487-498. *)
Definition compareNull (v w : fval) : Z * bool :=
  if isNull v && isNull w then (0, true)
  else if isNull v && negb (isNull w) then (-1, true)
  else if negb (isNull v) && isNull w then (1, true)
  else (0, false).

(** fastval.go:530-564. *)
Definition compareFloat (o : oracles) (v w : fval) : Z * bool :=
  let '(x, ok) := asFloat o v in
  let '(y, ok2) := asFloat o w in
  if isNaN x || isNaN y then
    (if isNaN x && isNaN y then 0 else if isNaN x then -1 else 1, false)
  else if fltb (SFabs (fsub x y)) EPSILON then (0, ok && ok2)
  else if fltb x y then (-1, ok && ok2)
  else if fltb y x then (1, ok && ok2)
  else (0, ok && ok2).

(** fastval.go:475-485 - [floatToIntOverflows]: the bounds are rounded to float64. *)
Definition floatToIntOverflows (f : float) : bool :=
  negb (SFleb (Z2f minInt64) f && SFleb f (Z2f maxInt64)).

(** fastval.go:500-515. *)
Definition compareInt (o : oracles) (v w : fval) : Z * bool :=
  let plainCmp :=
    let '(x, ok) := asInt o v in
    let '(y, ok2) := asInt o w in
    (cmpZ x y, ok && ok2) in
  match w with
  | VFloat f => if floatToIntOverflows f then compareFloat o v w else plainCmp
  | _ => plainCmp
  end.

(** fastval.go:517-528. *)
Definition compareUint (o : oracles) (v w : fval) : Z * bool :=
  let '(x, ok) := asUint o v in
  let '(y, ok2) := asUint o w in
  (cmpZ x y, ok && ok2).

(** fastval.go:566-580. *)
Definition compareBoolean (o : oracles) (v w : fval) : Z * bool :=
  let '(x, ok) := asBoolean o v in
  let '(y, ok2) := asBoolean o w in
  if negb ok || negb ok2 then (0, false)
  else if Bool.eqb x y then (0, true) else if x && negb y then (1, true) else (-1, true).

(** fastval.go:608-623. *)
Definition compareTime (o : oracles) (v w : fval) : Z * bool :=
  match asTime o v, asTime o w with
  | Some x, Some y => (cmpZ x y, true)
  | _, _ => (0, false)
  end.

(** fastval.go:582-606. *)
Definition compareStrings (o : oracles) (v : fval) (w : fastval) : Z * bool :=
  if isString (fv w) || isNumeric (fv w) then
    let '(x, ok) := toJsonStringInternal o v in
    let '(y, ok2) := toJsonStringInternal o (fv w) in
    (cmpBytes (sliceData x) (sliceData y), ok && ok2)
  else if userDefined w then
    match fv w with
    | VTrue | VFalse =>
        if trueStringRegex (sliceData v) || falseStringRegex (sliceData v)
        then compareBoolean o v (fv w) else (0, false)
    | VTime _ =>
        match getNewTime o (sliceData v) with
        | Some _ => compareTime o v (fv w)
        | None => (0, false)
        end
    | _ => (0, false)
    end
  else (0, false).

(** fastval.go:625-658 - byte-wise after comparing lengths. *)
Fixpoint cmpSame (a b : bytes) : Z :=
  match a, b with
  | x :: a', y :: b' => if (y <? x)%N then 1 else if (x <? y)%N then -1 else cmpSame a' b'
  | _, _ => 0
  end.
Definition compareObjArrData (v w : fval) : Z * bool :=
  match v with
  | VArray a | VObject a =>
      let b := sliceData w in
      if Nat.ltb (length b) (length a) then (1, true)
      else if Nat.ltb (length a) (length b) then (-1, true)
      else (cmpSame a b, true)
  | _ => (-1, false)
  end.

(** fastval.go:669-677. *)
Definition collate (v w : fval) : Z * bool := (cmpZ (vrank (dataType v)) (vrank (dataType w)), false).

(** fastval.go:744-793. *)
Definition compareNumerics (o : oracles) (v w : fval) : Z * bool :=
  match v with
  | VJsonInt _ | VInt _ =>
      match w with
      | VFloat _ | VJsonFloat _ => compareFloat o v w
      | VUint _ | VJsonUint _ =>
          if 0 <=? fst (asInt o v) then compareUint o v w else compareInt o v w
      | _ => compareInt o v w
      end
  | VJsonUint _ | VUint _ =>
      match w with
      | VInt _ | VJsonInt _ =>
          if 0 <=? fst (asInt o v) then compareUint o v w else compareInt o v w
      | VFloat _ | VJsonFloat _ => compareFloat o v w
      | _ => compareUint o v w
      end
  | VFloat _ | VJsonFloat _ => compareFloat o v w
  | _ => (0, false) (* unreachable: panics in Go; see compareInternal *)
  end.

(** fastval.go:795-803. *)
Definition isSameDataTypeAs (v w : fval) : bool :=
  vtype_eqb (dataType v) (dataType w) || (isString v && isString w).

(** fastval.go:52-77 - ImplicitConvTable[from][to]. *)
Definition implicitConv (from to : vtype) : option bool :=
  match from with
  | IntValue | JsonIntValue =>
      match to with
      | UintValue | JsonUintValue => Some false
      | FloatValue | JsonFloatValue | StringValue | BinStringValue | JsonStringValue
      | NullValue | TrueValue | FalseValue => Some true
      | _ => None
      end
  | UintValue | JsonUintValue =>
      match to with
      | IntValue | JsonIntValue | FloatValue | JsonFloatValue | StringValue | BinStringValue
      | JsonStringValue | NullValue | TrueValue | FalseValue => Some true
      | _ => None
      end
  | FloatValue | JsonFloatValue =>
      match to with
      | StringValue | BinStringValue | JsonStringValue | NullValue | TrueValue | FalseValue => Some true
      | _ => None
      end
  | TrueValue =>
      match to with
      | IntValue | JsonIntValue | UintValue | JsonUintValue | FloatValue | JsonFloatValue
      | StringValue | BinStringValue | JsonStringValue | NullValue | FalseValue => Some true
      | _ => None
      end
  | FalseValue =>
      match to with
      | IntValue | JsonIntValue | UintValue | JsonUintValue | FloatValue | JsonFloatValue
      | StringValue | BinStringValue | JsonStringValue | NullValue | TrueValue => Some true
      | _ => None
      end
  | StringValue | BinStringValue | JsonStringValue =>
      match to with
      | IntValue | JsonIntValue | UintValue | JsonUintValue | FloatValue | JsonFloatValue
      | TrueValue | FalseValue | TimeValue => Some false
      | NullValue => Some true
      | _ => None
      end
  | _ => None
  end.

(** fastval.go:806-857 - [val.checkCompatibility(other)]. *)
Definition checkCompatibility (o : oracles) (v w : fval) : bool :=
  if isSameDataTypeAs v w then true
  else if isNull v then true
  else
    match implicitConv (dataType w) (dataType v) with
    | None => false
    | Some true => true
    | Some false =>
        match v with
        | VTime _ => match asTime o w with Some _ => true | None => false end
        | VUint _ | VJsonUint _ => snd (asUint o w)
        | VInt _ | VJsonInt _ => snd (asInt o w)
        | VFloat _ | VJsonFloat _ => snd (asFloat o w)
        | VTrue | VFalse => snd (asBoolean o w)
        | _ => false
        end
    end.

(** fastval.go:860-895. *)
Definition compareInternal (o : oracles) (v w : fastval) : Z * bool :=
  match fv v with
  | VInt _ | VUint _ | VFloat _ | VJsonInt _ | VJsonUint _ | VJsonFloat _ =>
      compareNumerics o (fv v) (fv w)
  | VString _ | VBinString _ | VJsonString _ => compareStrings o (fv v) w
  | VTrue | VFalse => compareBoolean o (fv v) (fv w)
  | VTime _ => compareTime o (fv v) (fv w)
  | VArray _ | VObject _ => compareObjArrData (fv v) (fv w)
  | VNull => compareNull (fv v) (fv w)
  | _ => collate (fv v) (fv w)
  end.

(** fastval.go:663-666. *)
Definition reverseCompare (o : oracles) (v w : fastval) : Z * bool :=
  let '(r, ok) := compareInternal o w v in (- r, ok).

(** fastval.go:715-741. *)
Definition compareUserDefined (o : oracles) (v w : fastval) : Z * bool :=
  let bothAreNumeric := isNumeric (fv v) && isNumeric (fv w) in
  if userDefined v then
    if negb (checkCompatibility o (fv v) (fv w)) then
      if bothAreNumeric then reverseCompare o v w else collate (fv v) (fv w)
    else compareInternal o v w
  else
    if negb (checkCompatibility o (fv w) (fv v)) then
      if bothAreNumeric then reverseCompare o v w else collate (fv v) (fv w)
    else reverseCompare o v w.

(** fastval.go:679-712 - [Compare]. *)
Definition compare (o : oracles) (v w : fastval) : Z * bool :=
  if userDefined v || userDefined w then compareUserDefined o v w
  else if isSameDataTypeAs (fv v) (fv w) then compareInternal o v w
  else if vrank (dataType (fv v)) <? vrank (dataType (fv w)) then
    if negb (checkCompatibility o (fv v) (fv w)) then
      if negb (checkCompatibility o (fv w) (fv v)) then collate (fv v) (fv w)
      else reverseCompare o v w
    else compareInternal o v w
  else
    if negb (checkCompatibility o (fv w) (fv v)) then
      if negb (checkCompatibility o (fv v) (fv w)) then collate (fv v) (fv w)
      else compareInternal o v w
    else reverseCompare o v w.

(** fastval.go:897-904 - [Equals]. *)
Definition equals (o : oracles) (v w : fastval) : bool * bool :=
  let '(r, ok) := compare o v w in (ok && (r =? 0), ok).

(** fastval.go:385-393, 906-931 - [Matches]. *)
Definition matches (o : oracles) (v w : fastval) : bool * bool :=
  match fv v with
  | VString _ | VBinString _ | VJsonString _ =>
      let '(x, ok) := toJsonStringInternal o (fv v) in
      if negb ok then (false, false)
      else match fv w with
           | VRegex r => (o_regex o r (sliceData x), true)
           | VPcre r => (o_pcre o r (sliceData x), true)
           | _ => (false, false)
           end
  | _ => (false, false)
  end.

(** fastlitparse.go:68-87 - [Parse]. *)
Definition parseLit (o : oracles) (t : tok) (l : bytes) : outcome fastval :=
  match t with
  | TString => Ok (plain (VBinString (parseString l)))
  | TEscString =>
      match parseEscString l (repeat 0%N 64) with
      | Ok (b, _, _) => Ok (plain (VBinString b))
      | Err => Err | Panic => Panic | OutOfFuel => OutOfFuel
      end
  | TInteger => Ok (plain (VInt (parseInt l)))
  | TNumber => Ok (plain (VFloat (fst (o_parseFloat o l))))
  | TNull => Ok (plain VNull)
  | TTrue => Ok (plain VTrue)
  | TFalse => Ok (plain VFalse)
  | _ => Panic
  end.
