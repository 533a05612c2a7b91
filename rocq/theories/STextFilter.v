(** Specification: what a text filter says about a document, read off the filter as
    written and the text of the document (C81). *)
From Coq Require Import String.
From Verif Require Import Base MTokenizer SJson SUnicode SNames MLit MFastVal MExpr MExprJson SExprJson SNumber TNumber MText SText SDate TDate SOrder SJsonFilter.
From Coq Require Import List NArith ZArith QArith Qabs Bool.
From Coq Require Import Floats.SpecFloat.
Import ListNotations.
Open Scope Q_scope.

Definition copk (p : cop) : cmpk :=
  match p with OEq _ => CEq | ONe _ => CNe | OLt => CLt | OLe => CLe | OGt => CGt | OGe => CGe end.
(** A field by itself. *)
Definition fieldS (f : field) : side := SField (FPlain f).
(** Neither side has a field inside a field of the other. *)
Definition apartSides (l r : side) : Prop :=
  forall f g, In f (sideFields l) -> In g (sideFields r) -> apart (fieldPath f) (fieldPath g).

(** Two numbers that may be added or subtracted: at most six decimal places, size up to
    ten million. That may be multiplied: three places, size up to a thousand. *)
Definition small (v : Q) : Prop := sixPlaces v /\ Qabs v <= 10000000.
Definition threeFine (v : Q) : Prop := (exists z, v == z # 1000) /\ Qabs v <= 1000.
Definition operands (p : aop) (v w : Q) : Prop :=
  match p with Plus | Minus => small v /\ small w | Times => threeFine v /\ threeFine w | _ => False end.
Definition joinedQ (p : aop) (v w : Q) : Q := match p with Minus => v - w | Times => v * w | _ => v + w end.

(** A string that is no integer: it has a character other than digits and signs. *)
Definition wordy (s : bytes) : Prop := exists c, In c s /\ ~ (48 <= c <= 57)%N /\ c <> 43%N /\ c <> 45%N.

Section States.
  Variable doc : cst.
  (** A number: of the document, or written in the filter (a decimal fraction there is
      what the scanner has rounded to the nearest double). *)
  Inductive quantity : side -> Q -> Prop :=
  | qu_field : forall f t x v, fl_neg f = false -> valueAt (fieldPath f) doc (CLit t x) -> numeral t x v -> quantity (fieldS f) v
  | qu_int : forall neg z, (0 <= z)%Z -> quantity (SValue (VNum (NInt neg z))) (inject_Z (if neg then - z else z))
  | qu_float : forall neg f v, nearest f v -> quantity (SValue (VNum (NFloat neg f))) (if neg then - v else v).
  (** A sum, difference or product of two numbers, a number of the document with a minus
      sign before it, and ABS of one. *)
  Inductive total : side -> Q -> Prop :=
  | ta_two : forall f p g v w, fl_neg f = false -> fl_neg g = false -> apart (fieldPath f) (fieldPath g) -> quantity (fieldS f) v -> quantity (fieldS g) w -> operands p v w ->
      total (SField (FTwo f p g)) (joinedQ p v w)
  | ta_left : forall n p f v w, fl_neg f = false -> quantity (SValue (VNum n)) v -> quantity (fieldS f) w -> operands p v w ->
      total (SField (FNumL n p f)) (joinedQ p v w)
  | ta_right : forall f p n v w, fl_neg f = false -> quantity (fieldS f) v -> quantity (SValue (VNum n)) w -> operands p v w ->
      total (SField (FNumR f p n)) (joinedQ p v w)
  | ta_minus : forall f t x v, fl_neg f = true -> valueAt (fieldPath f) doc (CLit t x) -> numeral t x v -> modest v -> total (fieldS f) (- v)
  | ta_abs : forall f t x v, fl_neg f = false -> valueAt (fieldPath f) doc (CLit t x) -> numeral t x v -> modest v ->
      total (SCall (COne false NAbs (AField (FPlain f)))) (Qabs v).
  (** A string: of the document, or written in the filter. *)
  Inductive wording : side -> bytes -> Prop :=
  | wo_field : forall f t x s, fl_neg f = false -> valueAt (fieldPath f) doc (CLit t x) -> nameIs t x s -> wording (fieldS f) s
  | wo_const : forall s, wording (SValue (VStr s)) s.
  (** A point in time: DATE of a string of the document, or of one written in the filter. *)
  Definition dateOfArg (a : arg) : side := SCall (COne false NDate a).
  Inductive moment : side -> stamp -> zone -> Prop :=
  | mo_field : forall f t x s st z, fl_neg f = false -> valueAt (fieldPath f) doc (CLit t x) -> nameIs t x s -> dateLayout s st z ->
      moment (dateOfArg (AField (FPlain f))) st z
  | mo_const : forall s st z, isoText s st z -> moment (dateOfArg (AValue (VStr s))) st z.
  (** A field, a constant. *)
  Inductive bareSide : side -> Prop :=
  | ba_field : forall f, fl_neg f = false -> bareSide (fieldS f)
  | ba_value : forall v, valueOk v -> bareSide (SValue v)
  | ba_bool : forall u b, bareSide (SBool u b).

  (** [states t b]: the test [t] is true ([b]) or false of the document. *)
  Inductive states : tbasic -> bool -> Prop :=
  | st_numbers : forall l p r v w b, apartSides l r -> quantity l v -> quantity r w -> modest v -> modest w ->
      (b = true <-> orderedQ (copk p) v w) -> states (BCmp l p r) b
  | st_sum : forall l p r v w b, apartSides l r -> total l v -> quantity r w -> modest w ->
      (b = true <-> orderedQ (copk p) v w) -> states (BCmp l p r) b
  | st_sum_right : forall l p r v w b, apartSides l r -> quantity l v -> total r w -> modest v ->
      (b = true <-> orderedQ (copk p) v w) -> states (BCmp l p r) b
  | st_texts : forall l p r a s b, apartSides l r -> wording l a -> wording r s -> asciiText a -> asciiText s ->
      (b = true <-> orderedText (copk p) a s) -> states (BCmp l p r) b
  | st_equal : forall l d r a s b, apartSides l r -> wording l a -> wording r s -> all_bytes a -> all_bytes s ->
      (b = true <-> a = s) -> states (BCmp l (OEq d) r) b
  | st_unequal : forall l d r a s b, apartSides l r -> wording l a -> wording r s -> all_bytes a -> all_bytes s ->
      (b = true <-> a <> s) -> states (BCmp l (ONe d) r) b
  | st_dates : forall l p r st z st' z' b, apartSides l r -> moment l st z -> moment r st' z' ->
      (b = true <-> ordered (copk p) (instant st z) (instant st' z')) -> states (BCmp l p r) b
  | st_same : forall f t x a d u c, fl_neg f = false -> valueAt (fieldPath f) doc (CLit t x) -> bareWord t (JBool a) ->
      states (BCmp (fieldS f) (OEq d) (SBool u c)) (Bool.eqb a c)
  | st_other : forall f t x a d u c, fl_neg f = false -> valueAt (fieldPath f) doc (CLit t x) -> bareWord t (JBool a) ->
      states (BCmp (fieldS f) (ONe d) (SBool u c)) (negb (Bool.eqb a c))
  | st_word_int : forall f t x s p neg z, fl_neg f = false -> valueAt (fieldPath f) doc (CLit t x) -> nameIs t x s -> wordy s -> (0 <= z < 2 ^ 63)%Z ->
      states (BCmp (fieldS f) p (SValue (VNum (NInt neg z)))) (match p with ONe _ | OGt | OGe => true | _ => false end)
  | st_int_word : forall f t x s p neg z, fl_neg f = false -> valueAt (fieldPath f) doc (CLit t x) -> nameIs t x s -> wordy s -> (0 <= z < 2 ^ 63)%Z ->
      states (BCmp (SValue (VNum (NInt neg z))) p (fieldS f)) (match p with ONe _ | OLt | OLe => true | _ => false end)
  | st_int_text : forall f x s p b, fl_neg f = false -> valueAt (fieldPath f) doc (CLit TInteger x) -> int_part x -> (- 2 ^ 63 <= int_val x < 2 ^ 63)%Z -> x <> s2b "-0"%string -> asciiText s ->
      (b = true <-> orderedText (copk p) x s) -> states (BCmp (fieldS f) p (SValue (VStr s))) b
  | st_absent : forall l p r f, apartSides l r -> bareSide l -> bareSide r -> In f (sideFields l ++ sideFields r) -> absent doc (fieldPath f) ->
      states (BCmp l p r) (match p with ONe _ => true | _ => false end)
  | st_exists : forall f w, valueAt (fieldPath f) doc w -> states (BExists f) true
  | st_exists_not : forall f, absent doc (fieldPath f) -> states (BExists f) false
  | st_missing : forall neg f, fl_neg f = false -> absent doc (fieldPath f) -> states (BMissing neg (fieldS f)) (negb neg)
  | st_missing_not : forall neg f w, fl_neg f = false -> valueAt (fieldPath f) doc w -> states (BMissing neg (fieldS f)) neg
  | st_null : forall neg f x, fl_neg f = false -> valueAt (fieldPath f) doc (CLit TNull x) -> states (BNull neg (fieldS f)) (negb neg)
  | st_null_not : forall neg f, fl_neg f = false -> absent doc (fieldPath f) -> states (BNull neg (fieldS f)) neg
  | st_null_other : forall neg f w, fl_neg f = false -> valueAt (fieldPath f) doc w -> (forall y, w <> CLit TNull y) -> states (BNull neg (fieldS f)) neg
  | st_false : forall u, states (BConst u false) false.
End States.

(** The filter, given the outcomes of its tests. *)
Section Outcome.
  Variable sb : tbasic -> bool.
  Fixpoint condOutcome (c : cond) : bool := match c with CNot d => negb (condOutcome d) | CBasic b => sb b end.
  Fixpoint filterOutcome (f : tfilter) : bool := match f with FOr a l => conjOutcome a || existsb conjOutcome l end
  with conjOutcome (c : tconj) : bool := match c with FAnd a l => termOutcome a && forallb termOutcome l end
  with termOutcome (t : tterm) : bool := match t with TParen f => filterOutcome f | TCond c => condOutcome c end.
End Outcome.
