(** Specification: decoded documents, and where the two matchers may be compared. *)
From Verif Require Import Base MTokenizer SJson SUnicode SNames MFastVal SEvents MExpr MExprJson MTree SDoc SSat.
From Coq Require Import List NArith ZArith Arith Lia Bool Permutation.
From Coq Require Import Floats.SpecFloat.
Import ListNotations.
Open Scope nat_scope.

(** What json.Unmarshal makes of a document whose strings are valid Unicode and whose
    objects have no repeated names; members come in any order. *)
Inductive decodes (o : oracles) : cst -> jv -> Prop :=
| dc_null : forall x, decodes o (CLit TNull x) JNull
| dc_true : forall x, decodes o (CLit TTrue x) (JBool true)
| dc_false : forall x, decodes o (CLit TFalse x) (JBool false)
| dc_num : forall t x f, num_kind t -> o_parseFloat o x = (f, true) -> decodes o (CLit t x) (JNum f)
| dc_str : forall t x us, Forall scalar us -> nameIs t x (utf8s us) -> decodes o (CLit t x) (JStr (utf8s us))
| dc_arr : forall es w l, Forall2 (fun e j => decodes o (e_v e) j) es l -> decodes o (CArr es w) (JArr l)
| dc_obj : forall ms w m m',
    Forall2 (fun x p => nameIs (m_kt x) (m_kx x) (fst p) /\ decodes o (m_v x) (snd p)) ms m -> Permutation m m' ->
    decodes o (CObj ms w) (JObj m').

(** ParseFloat is exact on integer literals that binary64 represents; a negative
    zero is the zero with a sign. *)
Definition parsesIntegers (o : oracles) : Prop :=
  forall x, int_part x -> (- 2 ^ 53 < int_val x < 2 ^ 53)%Z ->
  exists f, o_parseFloat o x = (f, true) /\ (f = Z2f (int_val x) \/ int_val x = 0%Z /\ f = S754_zero true).

(** An operand at hand: a constant or a value of the document. *)
Inductive operand := OC (g : gval) | OD (v : cst).
Definition readOp (doc cur : cst) (e : expr) : option operand :=
  match e with
  | XField r q => option_map OD (fieldAt doc cur r q)
  | XValue g => Some (OC g)
  | _ => None
  end.

Section Comparable.
  Variable o : oracles.

  (** It is the number [f], as binary64. *)
  Definition number (a : operand) (f : float) : Prop :=
    a = OC (GFloat f) \/ exists t x, num_kind t /\ a = OD (CLit t x) /\ o_parseFloat o x = (f, true).
  Definition wholeLit (a : operand) : Prop := exists x, a = OD (CLit TInteger x).
  (** Integer literals are below 2^53. *)
  Definition safeLit (a : operand) : Prop := forall x, a = OD (CLit TInteger x) -> (- 2 ^ 53 < int_val x < 2 ^ 53)%Z.
  (** Equal, or at least the tolerance of 1e-7 apart. *)
  Definition clear (f g : float) : Prop := SFcompare f g = Some Eq \/ fltb (SFabs (fsub f g)) EPSILON = false.

  (** It is the string [s]. *)
  Definition text (a : operand) (s : bytes) : Prop :=
    a = OC (GString s) \/ exists t x, a = OD (CLit t x) /\ nameIs t x s.
  (** Printable characters, no quote, no backslash. *)
  Definition printable (s : bytes) : Prop :=
    exists us, s = utf8s us /\ Forall (fun u => scalar u /\ o_isPrint o u = true /\ u <> 34%N /\ u <> 92%N) us.

  Definition comparable (k : cmpk) (a b : operand) : Prop :=
    (forall f g, number a f -> number b g ->
       safeLit a /\ safeLit b /\ f <> S754_nan /\ g <> S754_nan /\ (wholeLit a /\ wholeLit b \/ clear f g))
    /\ (forall s t, text a s -> text b t -> all_bytes s /\ all_bytes t /\ (k = CEq \/ k = CNe \/ printable s /\ printable t))
    /\ a <> OC GOther /\ b <> OC GOther.

  (** Every field the filter reads is there, comparisons are of that kind, loops run
      over arrays. *)
  Fixpoint agreeable (doc cur : cst) (e : expr) : Prop :=
    match e with
    | XAnd l | XOr l => (fix go l := match l with [] => True | x :: r => agreeable doc cur x /\ go r end) l
    | XCmp k l r => exists a b, readOp doc cur l = Some a /\ readOp doc cur r = Some b /\ comparable k a b
    | XLoop m v (XField r q) s =>
        exists es w, fieldAt doc cur r q = Some (CArr es w) /\ forall e, In e es -> agreeable doc (e_v e) s
    | _ => True
    end.
End Comparable.

(** Inner loops do not reuse the variable of an outer one. *)
Fixpoint unshadowed (vs : list nat) (e : expr) : Prop :=
  match e with
  | XAnd l | XOr l => (fix go l := match l with [] => True | x :: r => unshadowed vs x /\ go r end) l
  | XLoop _ v _ s => ~ In v vs /\ unshadowed (v :: vs) s
  | _ => True
  end.
