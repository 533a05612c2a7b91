(** Field-reference collection: final statements (C18). *)
From Coq Require Import String.
From Verif Require Import Base SEvents MExpr SExpr PExpr.
From Coq Require Import List NArith Arith Lia Bool.
Import ListNotations.

(** ** C18 *)

(** Whenever the collection returns, the result has no duplicates and contains
    exactly the fields the expression mentions outside the scope of the loop
    variable they start from. *)
Theorem C18_exactly_the_mentioned_fields : forall e fs,
  fetchExprFieldRefs e = Ok fs ->
  NoDup fs /\ (forall f, In f fs <-> mentions e [] f).
Proof.
  intros e fs He. pose proof (fetch_rec_ok e [] []) as X. unfold fetchExprFieldRefs in He. rewrite He in X.
  destruct X as (X1 & X2 & _). split; [apply X1; constructor|]. intro f. rewrite (X2 f). cbn. tauto.
Qed.

(** It returns on every expression without constants TRUE / FALSE and NOT EXISTS
    nodes, and crashes on every other one. *)
Theorem C18_defined_iff_supported : forall e,
  (exists fs, fetchExprFieldRefs e = Ok fs) <-> ~ has_unsupported e.
Proof.
  intro e. pose proof (fetch_rec_ok e [] []) as X. unfold fetchExprFieldRefs.
  destruct (fetchRec e [] []) as [fs| | |]; split; intro Y.
  - apply X.
  - eauto.
  - destruct Y; discriminate.
  - contradiction.
  - destruct Y; discriminate.
  - contradiction.
  - destruct Y; discriminate.
  - contradiction.
Qed.

Theorem C18_unsupported_crashes : forall e, has_unsupported e -> fetchExprFieldRefs e = Panic.
Proof.
  intros e He. pose proof (fetch_rec_ok e [] []) as X. unfold fetchExprFieldRefs.
  destruct (fetchRec e [] []) as [fs| | |]; try contradiction; auto. destruct X as (_ & _ & X). contradiction.
Qed.

(** [any v in a.b: v.x = add(c, v.y) and v.x > c]: fields a.b and c, once each. *)
Example C18_example :
  let fld := fun r p => XField r (map s2b p) in
  fetchExprFieldRefs
    (XLoop LAny 1 (fld 0 ["a"; "b"]%string)
       (XAnd [XCmp CEq (fld 1 ["x"]%string) (XFunc (s2b "mathAdd") [fld 0 ["c"]%string; fld 1 ["y"]%string]);
              XCmp CGt (fld 1 ["x"]%string) (fld 0 ["c"]%string)]))
  = Ok [(0, [s2b "a"; s2b "b"]); (0, [s2b "c"])].
Proof. reflexivity. Qed.

Example C18_example_supported :
  ~ has_unsupported (XLoop LEvery 2 (XField 0 [s2b "a"]) (XExists (XField 2 []))).
Proof. intro H. inversion H; subst; inversion H1; subst; inversion H2. Qed.

Example C18_crash_example :
  has_unsupported (XOr [XExists (XField 0 [s2b "a"]); XNot (XNotExists (XField 0 [s2b "b"]))]).
Proof. eapply un_or; [right; left; reflexivity|]. apply un_not, un_notexists. Qed.

Print Assumptions C18_exactly_the_mentioned_fields.
Print Assumptions C18_defined_iff_supported.
Print Assumptions C18_unsupported_crashes.
