(** Specification: what a filter in the JSON syntax says about a document, read off
    the words of the filter and the text of the document (C80). *)
From Coq Require Import String.
From Verif Require Import Base MTokenizer SJson SUnicode SNames MLit MFastVal SEvents MExpr MExprJson SExprJson SNumber TNumber SOrder.
From Coq Require Import List NArith ZArith QArith Qabs Bool.
From Coq Require Import Floats.SpecFloat.
Import ListNotations.
Open Scope Q_scope.

(** A literal of the document is written as a number of value [v]. *)
Inductive numeral : tok -> bytes -> Q -> Prop :=
| nl_int : forall x, int_part x -> numeral TInteger x (inject_Z (int_val x))
| nl_dec : forall x v, numberIs x v -> numeral TNumber x v.
(** At most six decimal places, and size up to twenty million. *)
Definition modest (v : Q) : Prop := sixPlaces v /\ Qabs v <= 20000000.
(** The words of the document for null, true and false, and the constants. *)
Inductive bareWord : tok -> jv -> Prop :=
| bw_null : bareWord TNull JNull
| bw_true : bareWord TTrue (JBool true)
| bw_false : bareWord TFalse (JBool false).
(** Constants that are not arrays or objects. *)
Definition simple (x : jv) : Prop := match x with JArr _ | JObj _ => False | _ => True end.

Definition fieldJ (p : list bytes) : jv := JArr (word "field" :: map JStr p).
Definition valueJ (x : jv) : jv := JArr [word "value"; x].
(** [v] names the value at [p] in the document, or in the element variable [f] is at. *)
Inductive ofDoc : list bytes -> jv -> Prop := od : forall c q, ofDoc (c :: q) (fieldJ (c :: q)).
Inductive ofVar (f : float) : list bytes -> jv -> Prop := ov : forall p, ofVar f p (JArr (word "field" :: JNum f :: map JStr p)).

(** Neither path goes on from the other. *)
Definition apart (p q : list bytes) : Prop := forall c r, q <> p ++ c :: r /\ p <> q ++ c :: r.

Section Says.
  Variable names : list bytes -> jv -> Prop.
  Variable doc : cst.
  Definition absent (p : list bytes) : Prop := forall w, ~ valueAt p doc w.

  (** [says v b]: filter [v] is true ([b]) or false of the document.
      - A number in the document, against a number the decoder of the filter has
        rounded to the double [f], is compared by value.
      - A string is equal to the string of the same bytes; strings of printable ASCII
        are ordered as in a dictionary, by character codes; null, true and false each
        to itself, and true is not false.
      - Of an absent field no comparison holds but [notequals].
      - Two fields are compared in the same way, if neither lies within the other.
      - [exists] asks whether there is a value at the path. *)
  Inductive says : jv -> bool -> Prop :=
  | sy_number : forall k p n t x v f w b, names p n -> k <> CLike -> valueAt p doc (CLit t x) -> numeral t x v -> nearest f w ->
      modest v -> modest w -> (b = true <-> orderedQ k v w) -> says (JArr [word (cmpWord k); n; valueJ (JNum f)]) b
  | sy_equal : forall p n t x a s b, names p n -> valueAt p doc (CLit t x) -> nameIs t x a -> all_bytes a -> all_bytes s ->
      (b = true <-> a = s) -> says (JArr [word "equals"; n; valueJ (JStr s)]) b
  | sy_unequal : forall p n t x a s b, names p n -> valueAt p doc (CLit t x) -> nameIs t x a -> all_bytes a -> all_bytes s ->
      (b = true <-> a <> s) -> says (JArr [word "notequals"; n; valueJ (JStr s)]) b
  | sy_text : forall k p n t x a s b, names p n -> k <> CLike -> valueAt p doc (CLit t x) -> nameIs t x a -> asciiText a -> asciiText s ->
      (b = true <-> orderedText k a s) -> says (JArr [word (cmpWord k); n; valueJ (JStr s)]) b
  | sy_same : forall p n t x y, names p n -> valueAt p doc (CLit t x) -> bareWord t y -> says (JArr [word "equals"; n; valueJ y]) true
  | sy_other : forall p n t x a, names p n -> valueAt p doc (CLit t x) -> bareWord t (JBool a) ->
      says (JArr [word "equals"; n; valueJ (JBool (negb a))]) false
  | sy_absent : forall k p n y, names p n -> absent p -> simple y ->
      says (JArr [word (cmpWord k); n; valueJ y]) (match k with CNe => true | _ => false end)
  | sy_numbers : forall k p n q n' t x v t' x' w b, names p n -> names q n' -> apart p q -> k <> CLike -> valueAt p doc (CLit t x) -> numeral t x v ->
      valueAt q doc (CLit t' x') -> numeral t' x' w -> modest v -> modest w -> (b = true <-> orderedQ k v w) -> says (JArr [word (cmpWord k); n; n']) b
  | sy_texts : forall k p n q n' t x a t' x' s b, names p n -> names q n' -> apart p q -> k <> CLike -> valueAt p doc (CLit t x) -> nameIs t x a ->
      valueAt q doc (CLit t' x') -> nameIs t' x' s -> asciiText a -> asciiText s -> (b = true <-> orderedText k a s) -> says (JArr [word (cmpWord k); n; n']) b
  | sy_either : forall k p n q n', names p n -> names q n' -> apart p q -> absent p \/ absent q ->
      says (JArr [word (cmpWord k); n; n']) (match k with CNe => true | _ => false end)
  | sy_exists : forall p n w, names p n -> valueAt p doc w -> says (JArr [word "exists"; n]) true
  | sy_exists_not : forall p n, names p n -> absent p -> says (JArr [word "exists"; n]) false
  | sy_missing : forall p n, names p n -> absent p -> says (JArr [word "notexists"; n]) true
  | sy_missing_not : forall p n w, names p n -> valueAt p doc w -> says (JArr [word "notexists"; n]) false
  | sy_not : forall v b, says v b -> says (JArr [word "not"; v]) (negb b)
  | sy_and : forall v vs bs, saysAll (v :: vs) bs -> says (JArr (word "and" :: v :: vs)) (forallb (fun b => b) bs)
  | sy_or : forall v vs bs, saysAll (v :: vs) bs -> says (JArr (word "or" :: v :: vs)) (existsb (fun b => b) bs)
  with saysAll : list jv -> list bool -> Prop :=
  | sa_nil : saysAll [] []
  | sa_cons : forall v b vs bs, says v b -> saysAll vs bs -> saysAll (v :: vs) (b :: bs).
End Says.

(** Filters without [not], [notequals] and [notexists], whatever the document. *)
Section Affirms.
  Variable names : list bytes -> jv -> Prop.
  Inductive affirms : jv -> Prop :=
  | af_cmp : forall k p n y, names p n -> simple y -> k <> CNe -> affirms (JArr [word (cmpWord k); n; valueJ y])
  | af_exists : forall p n, names p n -> affirms (JArr [word "exists"; n])
  | af_and : forall v vs, affirmAll (v :: vs) -> affirms (JArr (word "and" :: v :: vs))
  | af_or : forall v vs, affirmAll (v :: vs) -> affirms (JArr (word "or" :: v :: vs))
  with affirmAll : list jv -> Prop :=
  | aa_nil : affirmAll []
  | aa_cons : forall v vs, affirms v -> affirmAll vs -> affirmAll (v :: vs).
End Affirms.

(** A loop over the elements of an array of the document: what the body says of each
    counts.  Over anything else, or nothing, no loop holds. *)
Definition combines (m : lmode) (bs : list bool) (b : bool) : Prop :=
  b = true <-> match m with
    | LAny => In true bs | LEvery => ~ In false bs | LAnyEvery => In true bs /\ ~ In false bs
    end.
Inductive saysLoop (doc : cst) : jv -> bool -> Prop :=
| sl_loop : forall m f r p n body es w bs b, isNat f r -> r <> O -> ofDoc p n -> valueAt p doc (CArr es w) -> affirms (ofVar f) body ->
    Forall2 (fun e b => says (ofVar f) (e_v e) body b) es bs -> combines m bs b ->
    saysLoop doc (JArr [word (loopWord m); JNum f; n; body]) b
| sl_other : forall m f r p n body, isNat f r -> r <> O -> ofDoc p n -> (forall es w, ~ valueAt p doc (CArr es w)) -> affirms (ofVar f) body ->
    saysLoop doc (JArr [word (loopWord m); JNum f; n; body]) false.
