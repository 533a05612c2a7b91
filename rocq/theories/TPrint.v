(** The text shown for a text filter: final statements (C71). *)
From Coq Require Import String Ascii.
From Verif Require Import Base MTokenizer SJson MLit MFastVal MMath SFormula SEvents MExpr MTransform MMatcher SFilter MTree SDoc SSat SSem
  PTree PWf PCheck TReset TMatch SExamples MText SText PText TText MGrammar SGrammar PGrammar PGrammarSafe TGrammar MPrint SPrint PPrint.
From Coq Require Import List NArith ZArith Arith Lia Bool.
From Coq Require Import Floats.SpecFloat.
Import ListNotations.
Open Scope string_scope.
Open Scope nat_scope.

(** ** C71: what is shown *)

(** The text shown is the words of the filter [asShown f] in their order, one space
    between two of them except next to a sign; a boolean constant is followed by
    "(bool)". *)
Theorem C71_prints : forall x f, allBasic basicLits f ->
  exists s, filterString x (tree f) = Ok s /\ spaced shown (wFilter (x_fmtV x) (asShown f)) s.
Proof.
  intros x f H. destruct (show_filter shown True) with (x := x) (f := f) as (s & Es & _ & HS); [left; reflexivity| | |exists s; auto].
  - intros _ u b. right. split; [destruct u, b; cbn; tauto|reflexivity].
  - apply (all_both basicLits basicLits); auto. intros b Hb _. split; auto.
Qed.

(** Without boolean constants the words are there exactly as they are written. *)
Theorem C71_exact : forall x f, allBasic basicLits f -> allBasic basicPlain f ->
  exists s, filterString x (tree f) = Ok s /\ spaced (fun t b => b = tk_text t) (wFilter (x_fmtV x) (asShown f)) s.
Proof.
  intros x f H HP. destruct (show_filter (fun t b => b = tk_text t) False) with (x := x) (f := f) as (s & Es & _ & HS); [reflexivity|contradiction| |exists s; auto].
  apply (all_both basicLits basicPlain); auto. intros b Hb Hp. split; auto.
Qed.

(** Every filter the grammar accepts is shown: no method meets a missing part. *)
Theorem C71_no_panic : forall L intOf floatOf x ts t, parseTokens L intOf floatOf ts = Ok t -> exists s, filterString x t = Ok s.
Proof. intros L intOf floatOf x ts t E. exact (parse_told L intOf floatOf x ts t E). Qed.

(** The filter that is shown means the same on every document, if there is no arithmetic
    with two fields. *)
Theorem C71_meaning : forall o x doc f, allBasic basicWhole f -> means o x doc (asShown f) = means o x doc f.
Proof. intros. now apply as_means. Qed.

(** It is itself shown by the same text. *)
Theorem C71_stable : forall x f, allBasic basicLits f -> filterString x (tree (asShown f)) = filterString x (tree f).
Proof. intros. now apply again. Qed.

(** The text does not determine the filter: of [a + b] only [a] is shown, and a string
    is shown without quotes, like a field. *)
Definition missing (l : side) : tfilter := one (CBasic (BMissing false l)).
Theorem C71_distinct_refuted :
  (exists f g doc, allBasic basicLits f /\ allBasic basicLits g /\ wf_cst doc /\
     (forall x, filterString x (tree f) = filterString x (tree g)) /\ forall o x, means o x doc f <> means o x doc g) /\
  (exists f g doc, allBasic basicLits f /\ allBasic basicLits g /\ allBasic basicWhole f /\ allBasic basicWhole g /\ wf_cst doc /\
     (forall x, filterString x (tree f) = filterString x (tree g)) /\ forall o x, means o x doc f <> means o x doc g).
Proof.
  split.
  - exists (missing (SField (FTwo (fd "a") Plus (fd "b")))), (missing (fs "a")), (obj [("a", lit "1")]).
    split; [cbn; tauto|]. split; [cbn; tauto|]. split; [apply wfb_ok; reflexivity|]. split; [reflexivity|]. intros o x. vm_compute. discriminate.
  - exists (missing (SValue (VStr (s2b "b")))), (missing (fs "b")), (obj []).
    split; [cbn; tauto|]. split; [cbn; tauto|]. split; [cbn; tauto|]. split; [cbn; tauto|]. split; [apply wfb_ok; reflexivity|]. split; [reflexivity|]. intros o x. vm_compute. discriminate.
Qed.

(** ** Examples *)

Definition shows (x : textEnv) (s : string) : outcome bytes := do t <- rd s; filterString x t.
Example exF_shown : forall x, filterString x (tree exF) = Ok (s2b "a = 5 AND ( ABS( b * -2 ) < 9 OR NOT EXISTS ( c ) ) OR REGEXP_CONTAINS( d , ^x )").
Proof. intro. vm_compute. reflexivity. Qed.
Example exF_lits : allBasic basicLits exF /\ allBasic basicPlain exF /\ allBasic basicWhole exF.
Proof. repeat split; try exact I; vm_compute; congruence. Qed.
Example ex_shown : forall x,
  shows x "TRUE OR false AND a [ 1 ] [ 2 ] . META ( ) . `c.d` ! = - b" = Ok (s2b "TRUE(bool) OR false(bool) AND a [1] [2].META().c.d <> -b") /\
  shows x "( NOT ATAN2 ( a , 3 ) > = - PI ( ) ) AND a IS NOT NULL AND b IS MISSING" = Ok (s2b "( NOT ATAN2( a , 3 ) >= -PI() ) AND a IS NOT NULL AND b IS MISSING") /\
  shows x "a = - 5 OR 3 + a = = 4" = Ok (s2b "a = -5 OR 3 + a = 4").
Proof. intro. repeat split; vm_compute; reflexivity. Qed.
Example ex_lost : forall x, shows x "a + b > 1" = Ok (s2b "a > 1") /\ shows x "a = ""b""" = shows x "a = b".
Proof. intro. split; vm_compute; reflexivity. Qed.

Print Assumptions C71_prints.
Print Assumptions C71_exact.
Print Assumptions C71_no_panic.
Print Assumptions C71_meaning.
Print Assumptions C71_stable.
Print Assumptions C71_distinct_refuted.
