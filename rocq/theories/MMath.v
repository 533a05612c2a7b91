(** Model of fastval_math.go.  Every function returns an [outcome] because Go's
    integer division panics on a zero divisor. *)
From Verif Require Import Base MTokenizer MLit MFastVal.
From Coq Require Import List NArith ZArith Bool.
From Coq Require Import Floats.SpecFloat.
Import ListNotations.
Open Scope Z_scope.

Definition vInvalid : fastval := plain VInvalid.

(** fastval_math.go:9-14 (int is 64 bits). *)
Definition floatMathRound (o : oracles) (f : float) : float :=
  if fltb f (Z2f 0) then Z2f (f2i o (fsub f fhalf)) else Z2f (f2i o (fadd f fhalf)).

(** math.Pi as binary64. *)
Definition fpi : float := S754_finite false 7074237752028440 (-51).

(** fastval_math.go:16-22. *)
Definition mathDegree (f : float) : float := fdiv (fmul f (Z2f 180)) fpi.
Definition mathRadians (f : float) : float := fdiv (fmul f fpi) (Z2f 180).

(** fastval_math.go:24-38. *)
Definition mathRound (o : oracles) (v : fastval) : outcome fastval :=
  if isFloat (fv v) then
    let '(f, ok) := asFloat o (fv v) in
    Ok (if ok then plain (VFloat (floatMathRound o f)) else vInvalid)
  else if isInt (fv v) || isUInt (fv v) then Ok v
  else Ok vInvalid.

(** fastval_math.go:40-57. *)
Definition mathAbs (o : oracles) (v : fastval) : outcome fastval :=
  if isUInt (fv v) then Ok v
  else
    let '(f, ok) := asFloat o (fv v) in
    if negb ok then Ok vInvalid
    else if isFloat (fv v) then Ok (plain (VFloat (SFabs f)))
    else if isInt (fv v) then Ok (plain (VInt (f2i o (SFabs f))))
    else Ok vInvalid.

(** fastval_math.go:69-127 - the integer operators; [None] is the run-time panic
    of a division by zero. *)
Definition addInt (a b : Z) : option Z := Some (wrap64 (a + b)).
Definition addUint (a b : Z) : option Z := Some (wrapU64 (a + b)).
Definition subInt (a b : Z) : option Z := Some (wrap64 (a - b)).
Definition subUint (a b : Z) : option Z := Some (wrapU64 (a - b)).
Definition mulInt (a b : Z) : option Z := Some (wrap64 (a * b)).
Definition mulUint (a b : Z) : option Z := Some (wrapU64 (a * b)).
Definition divInt (a b : Z) : option Z := if b =? 0 then None else Some (wrap64 (Z.quot a b)).
Definition divUint (a b : Z) : option Z := if b =? 0 then None else Some (Z.quot a b).
Definition modInt (a b : Z) : option Z := if b =? 0 then None else Some (Z.rem a b).
Definition modUint (a b : Z) : option Z := if b =? 0 then None else Some (Z.rem a b).
Definition negateInt (a : Z) : Z := wrap64 (-1 * a).
Definition negateFloat (f : float) : float := fmul (Z2f (-1)) f.

(** fastval_math.go:129-137. *)
Definition generic2Ints (o : oracles) (v w : fastval) (op : Z -> Z -> option Z) : outcome fastval :=
  let '(a, ok) := asInt o (fv v) in
  let '(b, ok2) := asInt o (fv w) in
  if negb (isNumeric (fv v)) || negb (isNumeric (fv w)) || negb ok || negb ok2 then Ok vInvalid
  else match op a b with Some r => Ok (plain (VInt r)) | None => Panic end.

(** fastval_math.go:139-147. *)
Definition generic2Uints (o : oracles) (v w : fastval) (op : Z -> Z -> option Z) : outcome fastval :=
  let '(a, ok) := asUint o (fv v) in
  let '(b, ok2) := asUint o (fv w) in
  if negb (isNumeric (fv v)) || negb (isNumeric (fv w)) || negb ok || negb ok2 then Ok vInvalid
  else match op a b with Some r => Ok (plain (VUint r)) | None => Panic end.

(** fastval_math.go:149-156. *)
Definition genericInt (o : oracles) (v : fastval) (op : Z -> Z) : outcome fastval :=
  let '(a, ok) := asInt o (fv v) in
  if ok && isNumeric (fv v) then Ok (plain (VInt (op a))) else Ok vInvalid.

(** fastval_math.go:158-165. *)
Definition genericFloat (o : oracles) (v : fastval) (op : float -> float) : outcome fastval :=
  let '(a, ok) := asFloat o (fv v) in
  if ok && isNumeric (fv v) then Ok (plain (VFloat (op a))) else Ok vInvalid.

(** fastval_math.go:167-175. *)
Definition generic2Floats (o : oracles) (v w : fastval) (op : float -> float -> float) : outcome fastval :=
  let '(a, ok) := asFloat o (fv v) in
  let '(b, ok2) := asFloat o (fv w) in
  if negb (isNumeric (fv v)) || negb (isNumeric (fv w)) || negb ok || negb ok2 then Ok vInvalid
  else Ok (plain (VFloat (op a b))).

(** fastval_math.go:177-223. *)
Definition mathFun1 (o : oracles) (f : mfun1) (v : fastval) : outcome fastval := genericFloat o v (o_fun1 o f).
(** fastval_math.go:225-231. *)
Definition mathFun2 (o : oracles) (f : mfun2) (v w : fastval) : outcome fastval := generic2Floats o v w (o_fun2 o f).
(** fastval_math.go:233-239. *)
Definition mathDegrees (o : oracles) (v : fastval) : outcome fastval := genericFloat o v mathDegree.
Definition mathRadiansV (o : oracles) (v : fastval) : outcome fastval := genericFloat o v mathRadians.

(** The three numeric families the switches distinguish. *)
Inductive nkind := KUint | KInt | KFloat | KNone.
Definition kind (v : fastval) : nkind :=
  match fv v with
  | VUint _ | VJsonUint _ => KUint
  | VInt _ | VJsonInt _ => KInt
  | VFloat _ | VJsonFloat _ => KFloat
  | _ => KNone
  end.

(** fastval_math.go:241-312. *)
Definition addMultShared (o : oracles) (v w : fastval) (iop uop : Z -> Z -> option Z)
  (fop : float -> float -> float) : outcome fastval :=
  match kind v with
  | KUint =>
      match kind w with
      | KUint => generic2Uints o v w uop
      | KInt =>
          let '(i, ok) := asInt o (fv w) in
          if negb ok then Ok vInvalid
          else if 0 <=? i then generic2Uints o v w uop
          else let '(u, ok1) := asUint o (fv v) in
               if negb ok1 || (maxInt64 <? u) then Ok vInvalid
               else generic2Ints o v w iop
      | KFloat => generic2Floats o v w fop
      | KNone => Ok vInvalid
      end
  | KInt =>
      match kind w with
      | KUint =>
          let '(i, ok) := asInt o (fv v) in
          if negb ok then Ok vInvalid
          else if 0 <=? i then generic2Uints o v w uop
          else let '(u, ok1) := asUint o (fv w) in
               if negb ok1 || (maxInt64 <? u) then Ok vInvalid
               else generic2Ints o v w iop
      | KInt => generic2Ints o v w iop
      | KFloat => generic2Floats o v w fop
      | KNone => Ok vInvalid
      end
  | KFloat => generic2Floats o v w fop
  | KNone => Ok vInvalid
  end.

(** fastval_math.go:314-320. *)
Definition mathAdd (o : oracles) (v w : fastval) := addMultShared o v w addInt addUint fadd.
Definition mathMul (o : oracles) (v w : fastval) := addMultShared o v w mulInt mulUint fmul.

(** fastval_math.go:322-419. *)
Definition mathSub (o : oracles) (v w : fastval) : outcome fastval :=
  match kind v with
  | KUint =>
      match kind w with
      | KUint =>
          let '(a, ok) := asUint o (fv v) in
          let '(b, ok1) := asUint o (fv w) in
          if negb ok || negb ok1 then Ok vInvalid
          else if b <=? a then generic2Uints o v w subUint
          else generic2Ints o v w subInt
      | KInt =>
          let '(a, ok) := asUint o (fv v) in
          let '(b, ok1) := asInt o (fv w) in
          if negb ok || negb ok1 then Ok vInvalid
          else if 0 <=? b then
            let '(bu, ok2) := asUint o (fv w) in
            if negb ok2 then Ok vInvalid
            else if a <? bu then generic2Ints o v w subInt
            else generic2Uints o v w subUint
          else generic2Uints o v (plain (VInt (negateInt b))) addUint
      | KFloat => generic2Floats o v w fsub
      | KNone => Ok vInvalid
      end
  | KInt =>
      match kind w with
      | KUint =>
          let '(a, ok) := asInt o (fv v) in
          let '(b, ok1) := asUint o (fv w) in
          if negb ok || negb ok1 then Ok vInvalid
          else if maxInt64 <? b then generic2Floats o v w fsub
          else if 0 <=? a then
            if fst (asInt o (fv w)) <? a then generic2Uints o v w subUint
            else generic2Ints o v w subInt
          else generic2Ints o v w subInt
      | KInt => generic2Ints o v w subInt
      | KFloat => generic2Floats o v w fsub
      | KNone => Ok vInvalid
      end
  | KFloat => generic2Floats o v w fsub
  | KNone => Ok vInvalid
  end.

(** fastval_math.go:421-493. *)
Definition mathDiv (o : oracles) (v w : fastval) : outcome fastval :=
  match kind v with
  | KUint =>
      match kind w with
      | KUint =>
          let '(b, ok) := asUint o (fv w) in
          if negb ok || (b =? 0) then Ok vInvalid else generic2Uints o v w divUint
      | KInt =>
          let '(b, ok) := asInt o (fv w) in
          if negb ok || (b =? 0) then Ok vInvalid
          else if 0 <? b then generic2Uints o v w divUint
          else generic2Ints o v w divInt
      | KFloat => generic2Floats o v w fdiv
      | KNone => Ok vInvalid
      end
  | KInt =>
      let '(a, ok) := asInt o (fv v) in
      if negb ok then Ok vInvalid
      else match kind w with
           | KUint =>
               let '(b, ok1) := asUint o (fv w) in
               if negb ok1 || ((a <? 0) && (maxInt64 <? b)) then generic2Floats o v w fdiv
               else if 0 <=? a then generic2Uints o v w divUint
               else generic2Ints o v w divInt
           | KInt => generic2Ints o v w divInt
           | KFloat => generic2Floats o v w fdiv
           | KNone => Ok vInvalid
           end
  | KFloat => generic2Floats o v w fdiv
  | KNone => Ok vInvalid
  end.

(** fastval_math.go:495-555. *)
Definition mathMod (o : oracles) (v w : fastval) : outcome fastval :=
  match kind v with
  | KUint =>
      match kind w with
      | KUint =>
          let '(b, ok) := asUint o (fv w) in
          if negb ok || (b =? 0) then Ok vInvalid else generic2Uints o v w modUint
      | KInt =>
          let '(b, ok) := asInt o (fv w) in
          if negb ok || (b =? 0) then Ok vInvalid
          else if 0 <? b then generic2Uints o v w modUint
          else generic2Ints o v w modInt
      | _ => Ok vInvalid
      end
  | KInt =>
      let '(a, ok) := asInt o (fv v) in
      if negb ok then Ok vInvalid
      else match kind w with
           | KUint =>
               let '(b, ok1) := asUint o (fv w) in
               if negb ok1 || ((a <? 0) && (maxInt64 <? b)) then Ok vInvalid
               else if 0 <=? a then generic2Uints o v w modUint
               else generic2Ints o v w modInt
           | KInt => generic2Ints o v w modInt
           | _ => Ok vInvalid
           end
  | _ => Ok vInvalid
  end.

(** fastval_math.go:557-578. *)
Definition mathNeg (o : oracles) (v : fastval) : outcome fastval :=
  match kind v with
  | KUint =>
      if maxInt64 <? fst (asUint o (fv v)) then Ok vInvalid else genericInt o v negateInt
  | KInt => genericInt o v negateInt
  | KFloat => genericFloat o v negateFloat
  | KNone => Ok vInvalid
  end.
