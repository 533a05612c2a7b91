(** Specification: the JSON array syntax of expressions. *)
From Coq Require Import String.
From Verif Require Import Base MTokenizer MLit MFastVal SEvents MExpr MExprJson.
From Coq Require Import List NArith ZArith Arith Bool Floats.SpecFloat.
Import ListNotations.
Open Scope nat_scope.

(** The word for each comparison and loop. *)
Definition cmpWord (k : cmpk) : string :=
  match k with
  | CEq => "equals" | CNe => "notequals" | CLt => "lessthan" | CLe => "lessequals"
  | CGt => "greaterthan" | CGe => "greaterequals" | CLike => "like"
  end.
Definition loopWord (m : lmode) : string :=
  match m with LAny => "anyin" | LEvery => "everyin" | LAnyEvery => "anyeveryin" end.
Definition word (s : string) : jv := JStr (s2b s).

(** The float [f] is the natural number [n], one a Go int can hold. *)
Definition isNat (f : float) (n : nat) : Prop :=
  (Z.of_nat n < 2 ^ 63)%Z /\
  match f with
  | S754_zero _ => n = 0
  | S754_finite false m e =>
      if (0 <=? e)%Z then Z.of_nat n = (Zpos m * 2 ^ e)%Z else (Z.of_nat n * 2 ^ (- e))%Z = Zpos m
  | _ => False
  end.

(** [written valid e v]: [v] is expression [e] in the syntax.  Constants are null,
    booleans, numbers and strings, times are valid; the root may be left out for
    fields of the document with a path. *)
Section Written.
  Variable valid : bytes -> Prop.

  Inductive written : expr -> jv -> Prop :=
  | w_null : written (XValue GNil) (JArr [word "value"; JNull])
  | w_bool : forall b, written (XValue (GBool b)) (JArr [word "value"; JBool b])
  | w_num : forall f, written (XValue (GFloat f)) (JArr [word "value"; JNum f])
  | w_str : forall s, written (XValue (GString s)) (JArr [word "value"; JStr s])
  | w_time : forall s, valid s -> written (XTime s) (JArr [word "time"; JStr s])
  | w_regex : forall s, written (XRegex s) (JArr [word "regex"; JStr s])
  | w_doc : forall c q, written (XField 0 (c :: q)) (JArr (word "field" :: map JStr (c :: q)))
  | w_field : forall f r q, isNat f r -> written (XField r q) (JArr (word "field" :: JNum f :: map JStr q))
  | w_func : forall n es vs, writtenAll es vs -> written (XFunc n es) (JArr (word "func" :: JStr n :: vs))
  | w_not : forall e v, written e v -> written (XNot e) (JArr [word "not"; v])
  | w_and : forall es vs, writtenAll es vs -> written (XAnd es) (JArr (word "and" :: vs))
  | w_or : forall es vs, writtenAll es vs -> written (XOr es) (JArr (word "or" :: vs))
  | w_exists : forall e v, written e v -> written (XExists e) (JArr [word "exists"; v])
  | w_notexists : forall e v, written e v -> written (XNotExists e) (JArr [word "notexists"; v])
  | w_cmp : forall k l r v w, written l v -> written r w -> written (XCmp k l r) (JArr [word (cmpWord k); v; w])
  | w_loop : forall m f x i s v w, isNat f x -> written i v -> written s w ->
      written (XLoop m x i s) (JArr [word (loopWord m); JNum f; v; w])
  with writtenAll : list expr -> list jv -> Prop :=
  | wa_nil : writtenAll [] []
  | wa_cons : forall e v es vs, written e v -> writtenAll es vs -> writtenAll (e :: es) (v :: vs).
End Written.

(** ** What is accepted
    As above, with anything decoded as constant, entries after the last operand
    ignored, numbers cut off to integers, and functions without a name. *)
Section Reads.
  Variable valid : bytes -> Prop.
  Variable toInt : float -> Z.

  Inductive reads : jv -> pexpr -> Prop :=
  | r_value : forall x t, reads (JArr (word "value" :: x :: t)) (PValue x)
  | r_time : forall s t, valid s -> reads (JArr (word "time" :: JStr s :: t)) (PTime (JStr s))
  | r_time_other : forall x t, (forall s, x <> JStr s) -> reads (JArr (word "time" :: x :: t)) (PTime x)
  | r_regex : forall x t, reads (JArr (word "regex" :: x :: t)) (PRegex x)
  | r_doc : forall c q, reads (JArr (word "field" :: map JStr (c :: q))) (PField 0 (c :: q))
  | r_field : forall f q, reads (JArr (word "field" :: JNum f :: map JStr q)) (PField (toInt f) q)
  | r_func : forall n vs ps, readsAll vs ps -> reads (JArr (word "func" :: JStr n :: vs)) (PFunc n ps)
  | r_func_bare : forall v p vs ps, reads v p -> readsAll vs ps -> reads (JArr (word "func" :: v :: vs)) (PFunc [] (p :: ps))
  | r_not : forall v p t, reads v p -> reads (JArr (word "not" :: v :: t)) (PNot p)
  | r_and : forall vs ps, readsAll vs ps -> reads (JArr (word "and" :: vs)) (PAnd ps)
  | r_or : forall vs ps, readsAll vs ps -> reads (JArr (word "or" :: vs)) (POr ps)
  | r_exists : forall v p t, reads v p -> reads (JArr (word "exists" :: v :: t)) (PExists p)
  | r_notexists : forall v p t, reads v p -> reads (JArr (word "notexists" :: v :: t)) (PNotExists p)
  | r_cmp : forall k v w p q t, reads v p -> reads w q -> reads (JArr (word (cmpWord k) :: v :: w :: t)) (PCmp k p q)
  | r_loop : forall m f v w p q t, reads v p -> reads w q ->
      reads (JArr (word (loopWord m) :: JNum f :: v :: w :: t)) (PLoop m (toInt f) p q)
  with readsAll : list jv -> list pexpr -> Prop :=
  | ra_nil : readsAll [] []
  | ra_cons : forall v p vs ps, reads v p -> readsAll vs ps -> readsAll (v :: vs) (p :: ps).
End Reads.

(** ** Shapes on which nothing can go wrong
    Operands each word needs. *)
Definition arity (s : bytes) : nat :=
  let is k := bytes_eqb s (s2b k) in
  if is "value"%string || is "field"%string || is "func"%string || is "not"%string || is "exists"%string || is "notexists"%string
     || is "regex"%string || is "time"%string then 1
  else if is "equals"%string || is "notequals"%string || is "lessthan"%string || is "lessequals"%string
          || is "greaterthan"%string || is "greaterequals"%string || is "like"%string then 2
  else if is "anyin"%string || is "everyin"%string || is "anyeveryin"%string then 3
  else 0.
(** Words whose operands are not expressions. *)
Definition flat (s : bytes) : bool :=
  let is k := bytes_eqb s (s2b k) in is "value"%string || is "field"%string || is "regex"%string || is "time"%string.
(** Parameters of a function: arrays, after a name. *)
Definition params (args : list jv) : list jv := match args with JStr _ :: r => r | _ => args end.

Fixpoint shaped (v : jv) : Prop :=
  match v with
  | JArr [] => False
  | JArr (JStr kw :: args) =>
      arity kw <= length args
      /\ (kw = s2b "func" -> Forall (fun x => exists l, x = JArr l) (params args))
      /\ (flat kw = false -> (fix go l := match l with [] => True | x :: r => shaped x /\ go r end) args)
  | _ => True
  end.
