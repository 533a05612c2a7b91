(** What filters of the reference matcher answer on a decoded document. *)
From Verif Require Import Base MTokenizer MLit MFastVal SEvents MExpr MExprJson MSlow.
From Coq Require Import List NArith ZArith Arith Bool.
From Coq Require Import Floats.SpecFloat.
Import ListNotations.
Open Scope nat_scope.

(** The values of variables: variable 0 is the document, others have none outside loops. *)
Definition env := nat -> jv.
Definition docOnly (d : jv) : env := fun r => match r with O => d | _ => JNull end.
Definition bind (w : env) (v : nat) (x : jv) : env := fun r => if Nat.eqb r v then x else w r.

(** The value of a path: through objects only; absent members are null. *)
Definition member (k : bytes) (m : list (bytes * jv)) : jv :=
  match find (fun p => bytes_eqb k (fst p)) m with Some p => snd p | None => JNull end.
Inductive pathTo : jv -> list bytes -> jv -> Prop :=
| pt_here : forall v, pathTo v [] v
| pt_member : forall m k q v, pathTo (member k m) q v -> pathTo (JObj m) (k :: q) v.
Inductive value (w : env) : expr -> sval -> Prop :=
| v_field : forall r q v, pathTo (w r) q v -> value w (XField r q) (SV v)
| v_nil : value w (XValue GNil) (SV JNull)
| v_bool : forall b, value w (XValue (GBool b)) (SV (JBool b))
| v_float : forall f, value w (XValue (GFloat f)) (SV (JNum f))
| v_string : forall s, value w (XValue (GString s)) (SV (JStr s))
| v_other : forall g, match g with GNil | GBool _ | GFloat _ | GString _ => False | _ => True end -> value w (XValue g) SOther.

(** One byte string before another. *)
Inductive before : bytes -> bytes -> Prop :=
| bf_end : forall c r, before [] (c :: r)
| bf_less : forall c d r s, (c < d)%N -> before (c :: r) (d :: s)
| bf_same : forall c r s, before r s -> before (c :: r) (c :: s).
(** Values that compare: of the same type, and null with everything on its right. *)
Inductive ordered : sval -> sval -> comparison -> Prop :=
| od_same : forall a, ordered (SV (JStr a)) (SV (JStr a)) Eq
| od_less : forall a b, before a b -> ordered (SV (JStr a)) (SV (JStr b)) Lt
| od_greater : forall a b, before b a -> ordered (SV (JStr a)) (SV (JStr b)) Gt
| od_number : forall a b, ordered (SV (JNum a)) (SV (JNum b)) (match SFcompare a b with Some c => c | None => Eq end)
| od_bool : forall a b, ordered (SV (JBool a)) (SV (JBool b)) (if eqb a b then Eq else if a then Gt else Lt)
| od_null : ordered (SV JNull) (SV JNull) Eq
| od_null_less : forall y, y <> SV JNull -> ordered (SV JNull) y Lt.
Definition holdsOf (k : cmpk) (c : comparison) : bool :=
  match k, c with
  | CEq, Eq | CNe, (Lt | Gt) | CLt, Lt | CLe, (Lt | Eq) | CGt, Gt | CGe, (Gt | Eq) => true
  | _, _ => false
  end.

(** One of the list answers true, those before it false; or all answer false. *)
Definition anyOf (l : list (bool -> Prop)) (b : bool) : Prop :=
  if b then exists p a q, l = p ++ a :: q /\ Forall (fun x => x false) p /\ a true else Forall (fun x : bool -> Prop => x false) l.
Definition allOf (l : list (bool -> Prop)) (b : bool) : Prop :=
  if b then Forall (fun x : bool -> Prop => x true) l else exists p a q, l = p ++ a :: q /\ Forall (fun x => x true) p /\ a false.
Inductive elements : jv -> list jv -> Prop :=
| el_arr : forall l, elements (JArr l) l
| el_obj : forall m, elements (JObj m) (map snd m).

(** The filter answers [b]. *)
Fixpoint answers (w : env) (e : expr) (b : bool) : Prop :=
  match e with
  | XOr l => anyOf (map (fun a => answers w a) l) b
  | XAnd [] => b = false
  | XAnd l => allOf (map (fun a => answers w a) l) b
  | XLoop LAny v i s => exists j l, value w i (SV j) /\ elements j l /\ anyOf (map (fun x => answers (bind w v x) s) l) b
  | XCmp k l r => k <> CLike /\ exists x y c, value w l x /\ value w r y /\ ordered x y c /\ b = holdsOf k c
  | _ => False
  end.
Definition rootAnswers (w : env) (e : expr) (b : bool) : Prop :=
  match e with XTrue => b = true | XFalse => b = false | _ => answers w e b end.
(** The filter is built of AND, OR, ANY and comparisons of fields and constants, and its
    loops run over arrays and objects. *)
Definition plainOperand (e : expr) : Prop := match e with XField _ _ | XValue _ => True | _ => False end.
Fixpoint steady (w : env) (e : expr) : Prop :=
  match e with
  | XOr l | XAnd l => (fix go l := match l with [] => True | a :: r => steady w a /\ go r end) l
  | XLoop LAny v i s =>
      (exists r q, i = XField r q) /\ forall j, value w i (SV j) -> exists l, elements j l /\ forall x, In x l -> steady (bind w v x) s
  | XCmp k l r => k <> CLike /\ plainOperand l /\ plainOperand r
  | _ => False
  end.
Definition rootSteady (w : env) (e : expr) : Prop := match e with XTrue | XFalse => True | _ => steady w e end.
(** All answer true, and there is one. *)
Definition together (bs : list bool) : bool := match bs with [] => false | _ => forallb (fun b => b) bs end.

(** A matcher for [es] after any use in which no call crashed. *)
Section Used.
  Variable unmarshal : bytes -> option jv.
  Variable es : list expr.
  Inductive used : slow -> Prop :=
  | us_new : used (newSlow es)
  | us_match : forall m data m' r, used m -> slowMatch unmarshal data m = (m', r) -> r <> Panic -> used m'
  | us_reset : forall m, used m -> used (resetSlow m).
End Used.
