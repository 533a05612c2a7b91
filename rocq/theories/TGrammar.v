(** The grammar of text filters: final statements (C62, C63). *)
From Coq Require Import String Ascii.
From Verif Require Import Base MTokenizer SJson MLit MFastVal MMath SFormula SEvents MExpr MTransform MMatcher SFilter MTree SDoc SSat SSem
  PTree PWf PCheck TReset TMatch SExamples MText SText PText TText MGrammar SGrammar PGrammar PGrammarSafe.
From Coq Require Import List NArith ZArith Arith Lia Bool.
From Coq Require Import Floats.SpecFloat.
Import ListNotations.
Open Scope string_scope.
Open Scope nat_scope.

(** ** C62: what is written is what is read *)

(** The words of a filter are read as exactly that filter: AND binds more tightly than
    OR, NOT more tightly than both, parentheses group, whatever the lookahead and the
    version of the parsing library. *)
Theorem C62_reads : forall L ftxt intOf floatOf f, 1 <= l_look L ->
  allBasic (basicSafe ftxt intOf floatOf (l_look L)) f -> parseTokens L intOf floatOf (wFilter ftxt f) = Ok (tree f).
Proof. intros. now apply parse_ok. Qed.

(** Two different filters are not written alike. *)
Theorem C62_distinct : forall L ftxt intOf floatOf f g, 1 <= l_look L ->
  allBasic (basicSafe ftxt intOf floatOf (l_look L)) f -> allBasic (basicSafe ftxt intOf floatOf (l_look L)) g ->
  wFilter ftxt f = wFilter ftxt g -> tree f = tree g.
Proof. intros L ftxt intOf floatOf f g HL Hf Hg E. pose proof (C62_reads L ftxt intOf floatOf f HL Hf) as X. rewrite E, (C62_reads L ftxt intOf floatOf g HL Hg) in X. congruence. Qed.

(** From the words to the answer on a document. *)
Theorem C62_match : forall L ftxt intOf floatOf o x f w1 doc w2, 1 <= l_look L ->
  allBasic (basicSafe ftxt intOf floatOf (l_look L)) f ->
  allBasic basicLits f -> allBasic (basicOk o x) f -> allBasic (basicBuilds o x) f -> allBasic basicRun f ->
  ws w1 -> wf_cst doc -> ws w2 -> container doc -> distinct doc -> allBasic (fits doc) f ->
  exists t D m, parseTokens L intOf floatOf (wFilter ftxt f) = Ok t /\ filterMatcher o x t = Ok (D, m) /\ ready o D m /\
  forall s0, ready o D s0 -> exists f0, forall fuel, f0 <= fuel -> exists s,
    match_ fuel o D (doc_text w1 doc w2) s0 = Ok (s, Some (means o x doc f)).
Proof.
  intros L ftxt intOf floatOf o x f w1 doc w2 HL HS. intros. destruct (C46_match o x f w1 doc w2) as (D & m & ED & HR & HM); auto.
  exists (tree f), D, m. split; [now apply C62_reads|auto].
Qed.

(** ** C63: whatever is written *)

(** Reading any sequence of words ends, with a tree or an error; translating the tree
    ends, with an expression or an error. *)
Theorem C63_total : forall L intOf floatOf o x ts,
  parseTokens L intOf floatOf ts = Err \/
  exists t, parseTokens L intOf floatOf ts = Ok t /\ (outputExpression o x t = Err \/ exists e, outputExpression o x t = Ok e).
Proof.
  intros L intOf floatOf o x ts. destruct (parse_total L intOf floatOf ts) as [E|[t E]]; [now left|right]. exists t. split; auto.
  pose proof (parse_calm L intOf floatOf o x ts t E) as H. destruct (outputExpression o x t); cbn in H; eauto; destruct H.
Qed.

(** ** Examples *)

(** Words separated by spaces, as the examples below are written. *)
Definition chars (s : string) : list ascii := (fix go s := match s with EmptyString => [] | String c r => c :: go r end) s.
Definition isDigit (c : ascii) : bool := (N.leb 48 (N_of_ascii c) && N.leb (N_of_ascii c) 57).
Definition isLetter (c : ascii) : bool := let n := N_of_ascii c in (N.leb 65 n && N.leb n 90) || (N.leb 97 n && N.leb n 122) || N.eqb n 95.
Definition tokOf (w : list ascii) : token :=
  let bs := map N_of_ascii w in
  match w with
  | [] => Tk KOther []
  | c :: r =>
      if Ascii.eqb c """" then Tk KString (map N_of_ascii (removelast r))
      else if Ascii.eqb c "`" then Tk KRaw (map N_of_ascii (removelast r))
      else if isDigit c then Tk (if existsb (Ascii.eqb ".") w then KFloat else KInt) bs
      else if isLetter c then Tk KIdent bs
      else Tk KOther bs
  end.
Fixpoint words (cur : list ascii) (l : list ascii) : list (list ascii) :=
  match l with
  | [] => match cur with [] => [] | _ => [rev cur] end
  | c :: r => if Ascii.eqb c " " then match cur with [] => words [] r | _ => rev cur :: words [] r end else words (c :: cur) r
  end.
Definition lex (s : string) : list token := map tokOf (words [] (chars s)).
(** Integers as they are written; a float is 1.5 whatever it says. *)
Definition exInt (b : bytes) : option Z := Some (fold_left (fun z c => z * 10 + (Z.of_N c - 48))%Z b 0%Z).
Definition f15 : float := S754_finite false 3 (-1).
Definition exFloat (b : bytes) : option float := Some f15.
Definition exTxt (f : float) : bytes := s2b "1.5".
Definition lib1 : lib := {| l_look := 1; l_keep := false |}.
Definition rd (s : string) : outcome feFilter := parseTokens lib1 exInt exFloat (lex s).
Definition accepted (s : string) : bool :=
  forallb (fun L => match parseTokens L exInt exFloat (lex s) with Ok _ => true | _ => false end)
    [lib1; {| l_look := 1; l_keep := true |}; {| l_look := 2; l_keep := false |}; {| l_look := 2; l_keep := true |}; {| l_look := 99; l_keep := true |}].
Definition refused (s : string) : bool :=
  forallb (fun L => match parseTokens L exInt exFloat (lex s) with Err => true | _ => false end)
    [lib1; {| l_look := 1; l_keep := true |}; {| l_look := 2; l_keep := false |}; {| l_look := 2; l_keep := true |}; {| l_look := 99; l_keep := true |}].

(** A filter that meets the hypotheses: two conjunctions, one of them with a
    parenthesised disjunction and a negation. *)
Definition exF : tfilter :=
  FOr (FAnd (TCond (cmpE (fs "a") (OEq false) (vi 5)))
         [TParen (FOr (FAnd (TCond (cmpE (SCall (COne false NAbs (AField (FNumR (fd "b") Times (NInt true 2))))) OLt (vi 9))) [])
                      [FAnd (TCond (CNot (CBasic (BExists (fd "c"))))) []])])
      [FAnd (TCond (CBasic (BRegex (AField (FPlain (fd "d"))) (VStr (s2b "^x"))))) []].
Example exF_words : wFilter exTxt exF = lex "a = 5 AND ( ABS ( b * - 2 ) < 9 OR NOT EXISTS ( c ) ) OR REGEXP_CONTAINS ( d , ""^x"" )".
Proof. vm_compute. reflexivity. Qed.
Example exF_safe : forall L, 1 <= l_look L -> allBasic (basicSafe exTxt exInt exFloat (l_look L)) exF.
Proof.
  intros L HL. unfold exF. cbn [allBasic allConj allTerm allCond cmpE SGrammar.basicSafe]. unfold lhsSafe, rhsSafe, fieldSafe, mathSafe, bareValue.
  repeat match goal with |- _ /\ _ => split end; try exact I; try (vm_compute; congruence); try (intros; reflexivity); cbn; repeat split; try discriminate; try reflexivity.
Qed.
Example exF_read : parseTokens lib1 exInt exFloat (lex "a = 5 AND ( ABS ( b * - 2 ) < 9 OR NOT EXISTS ( c ) ) OR REGEXP_CONTAINS ( d , ""^x"" )") = Ok (tree exF).
Proof. rewrite <- exF_words. apply C62_reads; [apply le_n|apply exF_safe; apply le_n]. Qed.

(** Filters of filterExprParser_test.go, in its order. *)
Example tests_accepted : forallb accepted
  ["`field` = TRUE"; "TRUE OR FALSE AND NOT FALSE"; "( TRUE OR FALSE )"; "( TRUE AND FALSE OR TRUE ) AND FALSE OR TRUE";
   "( ( TRUE OR FALSE ) AND ( FALSE OR TRUE ) ) AND ( TRUE OR TRUE )"; "TRUE AND ( TRUE OR FALSE ) AND TRUE OR FALSE OR TRUE OR FALSE AND TRUE";
   "NOT NOT NOT TRUE"; "fieldpath . path > = field2"; "fieldpath . path IS NOT NULL AND fieldpath . path2 IS NOT NULL"; "fieldpath . path = ""value""";
   "fieldpath . path = = ""value"""; "`onePath.Only` < field2"; "EXISTS ( onePath ) AND onePath IS NOT NULL AND onePath . field1 < onePath . field2";
   "EXISTS ( onePath ) AND onePath . field1 < > onePath . field2"; """string"" > `nullVal` AND NOT ""abc"" < `nullVal` AND nullVal ! = ""aString""";
   "int = = ""12"" AND float > ""0.1"" AND string > 123 AND string ! = - 24435"; "bool = = 1.0 AND NOT 24 < bool AND bool = = ""true"" AND bool > - 145 AND int > false";
   "META ( ) . `onePath.Only` = ""value"""; "EXISTS ( `[$%XDCRInternalMeta*%$]` . metaKey ) AND `[$%XDCRInternalMeta*%$]` . metaKey = ""value""";
   "arrayPath [ 1 ] . path2 . arrayPath3 [ 10 ] . `multiword_array` [ 20 ] = fieldpath2 . path2";
   "key < PI ( ) AND - key < 0 AND key > - PI ( ) AND key < ABS ( - PI ( ) ) AND key > - ABS ( - PI ( ) )"; "fieldpath . path < = ABS ( 5 )";
   "DATE ( fieldpath . path ) = DATE ( ""2019-01-01"" )"; "fieldpath . path > = ABS ( CEIL ( PI ( ) ) )"; "fieldpath . path2 IS MISSING";
   "fieldpath . path < > POW ( ABS ( CEIL ( PI ( ) ) ) , 2 )"; "REGEXP_CONTAINS ( `[$%XDCRInternalKey*%$]` , ""^xyz*"" )";
   "Testdoc = true AND REGEXP_CONTAINS ( `k` , ""^abc"" )"; "achievements [ 0 ] = 49 AND arrOfObjs [ 0 ] . `1D` = 50 AND floatArrs [ 0 ] = 1.1";
   "EXISTS ( achievements ) AND EXISTS ( achievements [ 0 ] )"; "achievements * 10 = 10"; "achievements * - 10 = - 10 AND achievements * - 10.1 = - 10.1";
   "achievements < - 1"; "1.0 / achievements = 0.25"; "1024 % achievements = 0"; "ABS ( 1025.0 / - achievements ) = 256.25"; "achievements / achievements2 = 2";
   "ABS ( achievements / achievements2 ) = 2"; "ASIN ( int ) < > 3.05 AND ASIN ( int ) ! = ASIN ( int )"; "ABS ( - achievements [ 2 ] * 10 ) > 0";
   "( country = = ""US"" OR country = ""CA"" AND type = ""b"" ) OR ( type = ""beer"" AND DATE ( updated ) > = DATE ( ""2019-01-18"" ) )";
   "( int > = 10000 ) AND ( int < > 1000000 ) OR ( float IS NOT NULL ) AND int > 0"] = true.
Proof. vm_compute. reflexivity. Qed.
Example tests_refused : forallb refused
  ["`2DarrayPath` [ 1 ] [ - 2 ] = fieldpath2 . path2"; "arrayPath [ 1 ] . path2 . arrayPath3 [ - 10 ] . `m` [ 20 ] = fieldpath2 . path2"; "( TRUE ) OR FALSE )";
   "( ( ( TRUE ) OR FALSE ) OR FALSE ) )"; "TRUE AND FALSE OR TRUE AND TRUE OR ( abcd 0 )";
   "TRUE AND FALSE OR TRUE AND TRUE OR ( TRUE AND REGEXP_CONTAINS ( abcd ) ) AND POW ( 0 , 2 )"; "TRUE OR FALSE OR ( TRUE REGEXP_CONTAINS ( abcd ) ) OR `2345`";
   "TRUE OR FALSE OR ( `123abc` ) OR `2345`"; "TRUE OR FALSE OR `123abc`"; "TRUE OR FALSE OR ( TRUE AND abc 012 )"; "achievement * 2 + 1";
   "REGEX_CONTAINS ( KEY , ""something"" )"; "REGEXP_CONTAINS ( METAS ( ) . id , ""something"" )"; "REGEXP_CONTAINS ( METAS ( ) . ID ( ) , ""something"" )";
   "REGEX_CONTAINS ( KEY , ""something"" ) AND OR"; "SomeKey EXISTS"] = true.
Proof. vm_compute. reflexivity. Qed.
(** Accepted by the grammar, refused by the translation. *)
Example tests_operator : accepted "field > < ""value""" = true
  /\ forall o x, match rd "field > < ""value""" with Ok t => outputExpression o x t = Err | _ => False end.
Proof. split; [vm_compute; reflexivity|]. intros o x. vm_compute. reflexivity. Qed.

(** ** What the grammar does to some filters *)

Definition cmp1 (l : side) (p : cop) (r : side) : tfilter := one (cmpE l p r).
(** Of a longer sum only the last number and the last operator are kept: [a + 1 - b = 3]
    is read as [a - 1 = 3], [a + b * c = 3] as [a * c = 3]. *)
Definition sumTree : feFilter := Eval vm_compute in match rd "a + 1 - b = 3" with Ok t => t | _ => {| fe_expr := None |} end.
Theorem C62_sum_refuted : forall o x,
  (exists t, rd "a + 1 - b = 3" = Ok t /\ outputExpression o x t = outputExpression o x (tree (cmp1 (SField (FNumR (fd "a") Minus (NInt false 1))) (OEq false) (vi 3))))
  /\ rd "a + b * c = 3" = Ok (tree (cmp1 (SField (FTwo (fd "a") Times (fd "c"))) (OEq false) (vi 3)))
  /\ accepted "a + 1 - b = 3" = true /\ accepted "a + b * c = 3" = true.
Proof. intros o x. split; [exists sumTree; split; [vm_compute; reflexivity|reflexivity]|]. repeat split; vm_compute; reflexivity. Qed.
(** A number times a field is accepted on the left only. *)
Theorem C62_right_refuted : refused "a = 2 * b" = true /\ accepted "2 * b = a" = true /\ accepted "a = b * 2" = true.
Proof. repeat split; vm_compute; reflexivity. Qed.
(** A negative number is accepted on the right, but on the left or as an argument only
    with a longer lookahead than the library has by default. *)
Theorem C62_negative_refuted : rd "- 5 < a" = Err /\ rd "a = ABS ( - 5 )" = Err /\ accepted "a < - 5" = true /\ accepted "a = ABS ( 5 )" = true
  /\ parseTokens {| l_look := 2; l_keep := false |} exInt exFloat (lex "- 5 < a") = Ok (tree (cmp1 (SValue (VNum (NInt true 5))) OLt (fs "a"))).
Proof. repeat split; vm_compute; reflexivity. Qed.
(** A string that is spelled like a word of the grammar is taken for that word:
    [a = "true"] compares with the boolean, [a = "="] is refused, and a quoted "OR"
    joins conditions. *)
Theorem C62_quoted_refuted :
  rd "a = ""true""" = Ok (tree (cmp1 (fs "a") (OEq false) (SBool false true)))
  /\ refused "a = ""=""" = true
  /\ rd "a = 1 ""OR"" b = 2" = rd "a = 1 OR b = 2" /\ rd "a = 1 OR b = 2" <> Err
  /\ refused "`TRUE` = 1" = true.
Proof. repeat split; vm_compute; try reflexivity. discriminate. Qed.
(** A boolean is accepted on the right only. *)
Theorem C62_left_refuted : refused "TRUE = a" = true /\ accepted "a = TRUE" = true.
Proof. repeat split; vm_compute; reflexivity. Qed.
(** Two minus signs are refused with the default lookahead and are one sign with a
    longer one. *)
Theorem C62_signs_refuted : let L := {| l_look := 3; l_keep := false |} in
  rd "a = - - 5" = Err
  /\ parseTokens L exInt exFloat (lex "a = - - 5") = Ok (tree (cmp1 (fs "a") (OEq false) (SValue (VNum (NInt true 5)))))
  /\ rd "- - a = 5" = Err
  /\ parseTokens L exInt exFloat (lex "- - a = 5") = Ok (tree (cmp1 (SField (FPlain (Field true (nm "a") []))) (OEq false) (vi 5))).
Proof. repeat split; vm_compute; reflexivity. Qed.

Print Assumptions C62_reads.
Print Assumptions C62_distinct.
Print Assumptions C62_match.
Print Assumptions C63_total.
Print Assumptions C62_sum_refuted.
Print Assumptions C62_right_refuted.
Print Assumptions C62_negative_refuted.
Print Assumptions C62_quoted_refuted.
Print Assumptions C62_left_refuted.
Print Assumptions C62_signs_refuted.
