(** Text filters: final statements (C46, C53). *)
From Coq Require Import String.
From Verif Require Import Base MTokenizer SJson MLit MFastVal MMath SFormula SEvents MExpr MTransform MMatcher SFilter MTree SDoc SSat SSem
  PTree PWf PCheck TReset TMatch SExamples MText SText PText.
From Coq Require Import List NArith ZArith Arith Lia Bool.
From Coq Require Import Floats.SpecFloat.
Import ListNotations.
Open Scope string_scope.
Open Scope nat_scope.

(** ** C46: translation *)

(** A filter is accepted exactly when its patterns and dates are; what it is translated
    to is true on a document exactly when the filter as written is. *)
Theorem C46_translates : forall o x f, allBasic basicLits f ->
  (allBasic (basicOk o x) f -> exists e, outputExpression o x (tree f) = Ok e /\ forall doc, truth o doc doc e = means o x doc f)
  /\ (~ allBasic (basicOk o x) f -> outputExpression o x (tree f) = Err).
Proof.
  intros o x f HL. change (outputExpression o x (tree f)) with (outInner o x (tFilter f)).
  destruct (out_filter o x f HL) as [[-> HK]|[-> HK]]; (split; intro X; [|]); try contradiction; auto.
  exists (xFilter x f). split; auto. intro doc. apply truth_filter.
Qed.

(** ** C53: building a matcher *)
Theorem C53_builds : forall o x f, allBasic basicLits f -> allBasic (basicBuilds o x) f ->
  (allBasic (basicOk o x) f -> exists D, filterMatcher o x (tree f) = Ok (D, newMatcher D))
  /\ (~ allBasic (basicOk o x) f -> filterMatcher o x (tree f) = Err).
Proof.
  intros o x f HL HB. unfold filterMatcher. change (outputExpression o x (tree f)) with (outInner o x (tFilter f)).
  destruct (out_filter o x f HL) as [[-> HK]|[-> HK]]; (split; intro X); try contradiction; auto. cbn [obind].
  destruct (C17_compilable_compiles o [xFilter x f]) as [D ->]; [constructor; [now apply filter_compilable|constructor]|]. cbn [obind]. eauto.
Qed.

(** ** From the filter as written to the answer *)
Theorem C46_match : forall o x f w1 doc w2,
  allBasic basicLits f -> allBasic (basicOk o x) f -> allBasic (basicBuilds o x) f -> allBasic basicRun f ->
  ws w1 -> wf_cst doc -> ws w2 -> container doc -> distinct doc -> allBasic (fits doc) f ->
  exists D m, filterMatcher o x (tree f) = Ok (D, m) /\ ready o D m /\
  forall s0, ready o D s0 -> exists f0, forall fuel, f0 <= fuel -> exists s,
    match_ fuel o D (doc_text w1 doc w2) s0 = Ok (s, Some (means o x doc f)).
Proof.
  intros o x f w1 doc w2 HL HK HB HR W1 WD W2 HO HD HF.
  destruct (C19_loop_free o (xFilter x f) w1 doc w2) as (D & ED & HM); auto.
  - split; [exists (xFilter x f); split; [now left|destruct f; discriminate]|].
    split; [constructor; [now apply filter_compilable|constructor]|constructor; [now apply filter_regular|constructor]].
  - now apply filter_loopFree.
  - apply loopFree_readable; auto. now apply filter_loopFree.
  - now apply filter_tame.
  - exists D, (newMatcher D). split; [|split; [now left|]].
    + unfold filterMatcher. change (outputExpression o x (tree f)) with (outInner o x (tFilter f)).
      destruct (out_filter o x f HL) as [[-> _]|[_ N]]; [|contradiction]. cbn [obind]. now rewrite ED.
    + intros s0 HS. destruct (HM s0 HS) as [f0 Hf]. exists f0. intros fuel Hfu. destruct (Hf fuel Hfu) as (s & Es & _). exists s.
      now rewrite <- (truth_filter o x doc f).
Qed.

(** ** Examples *)
Definition nm (s : string) : seg := Seg (NIdent (s2b s)) [].
Definition fd (s : string) : field := Field false (nm s) [].
Definition fs (s : string) : side := SField (FPlain (fd s)).
Definition vi (z : Z) : side := SValue (VNum (NInt false z)).
Definition one (c : cond) : tfilter := FOr (FAnd (TCond c) []) [].
Definition cmpE (l : side) (p : cop) (r : side) : cond := CBasic (BCmp l p r).
(** Filter and matcher, on one document. *)
Definition runText (o : oracles) (x : textEnv) (f : tfilter) (doc : string) : outcome (option bool) :=
  do (D, m) <- filterMatcher o x (tree f); do (s, r) <- match_ 100 o D (s2b doc) m; Ok r.
(** Arithmetic and dates play no part below. *)
Definition noOracle : oracles :=
  {| o_parseFloat := fun _ => (S754_nan, false); o_fmtE := fun _ => []; o_isPrint := fun u => (32 <=? u)%N; o_delX := true; o_parseRFC3339 := fun _ => None;
     o_f2i := fun _ => 0%Z; o_f2u := fun _ => 0%Z; o_fun1 := fun _ f => f; o_fun2 := fun _ f _ => f; o_regex := fun _ _ => false; o_pcre := fun _ _ => false;
     o_regexCompiles := fun s => negb (bytes_eqb s (s2b "(")); o_pcreCompiles := fun _ => true |}.
Definition noEnv : textEnv := {| x_fmtV := fun _ => []; x_pcre := false |}.

(** [(a = 1 OR NOT b >= 2) AND z IS MISSING AND a + b > -PI() OR FALSE AND EXISTS(`c d`[1].e)] *)
Definition exFilter : tfilter :=
  FOr (FAnd (TParen (FOr (FAnd (TCond (cmpE (fs "a") (OEq false) (vi 1))) []) [FAnd (TCond (CNot (cmpE (fs "b") OGe (vi 2)))) []]))
         [TCond (CBasic (BMissing false (fs "z"))); TCond (cmpE (SField (FTwo (fd "a") Plus (fd "b"))) OGt (SCall (CPi true)))])
      [FAnd (TCond (CBasic (BConst true false))) [TCond (CBasic (BExists (Field false (Seg (NRaw (s2b "c d")) [s2b "1"]) [nm "e"])))]].
Definition exDoc : cst := obj [("a", lit "1"); ("b", lit "5")].
Definition tT : cond := CBasic (BConst true true).

Ltac pfree := apply prefixFreeb_ok; vm_compute; reflexivity.
Ltac two_no := intros HT; apply twob_ok in HT; vm_compute in HT; discriminate.
Ltac fills := let f := fresh in let H := fresh in intros f H; cbn in H; repeat (destruct H as [<- | H]; [apply filledb_ok; vm_compute; reflexivity|]); destruct H.
(** It meets the hypotheses of [C46_match], for all libraries, and is true there. *)
Example C46_example : forall o x, allBasic basicLits exFilter /\ allBasic (basicOk o x) exFilter /\ allBasic (basicBuilds o x) exFilter
  /\ allBasic basicRun exFilter /\ wf_cst exDoc /\ distinct exDoc /\ allBasic (fits exDoc) exFilter
  /\ means noOracle noEnv exDoc exFilter = true /\ means noOracle noEnv (obj [("a", lit "2"); ("b", lit "5")]) exFilter = false.
Proof.
  intros o x. split; [|split; [|split; [|split; [|split; [|split; [|split; [|split]]]]]]].
  - cbn. repeat split; try exact I; lia.
  - cbn. tauto.
  - cbn [allBasic allConj allTerm allCond exFilter cmpE]. unfold basicBuilds. repeat split; pfree.
  - cbn. tauto.
  - apply wfb_ok. reflexivity.
  - apply distinctb_ok. vm_compute. reflexivity.
  - cbn [allBasic allConj allTerm allCond exFilter cmpE fits].
    assert (forall f, In f (sideFields (SField (FTwo (fd "a") Plus (fd "b")))) -> at_ (fieldPath f) exDoc <> None) as X.
    { intros f H. cbn in H. destruct H as [<- |[<- |[]]]; vm_compute; discriminate. }
    split; [split; [split; [split; [|exact I]|split; [split; [|exact I]|exact I]]|]|].
    + split; [fills|]. split; [discriminate|two_no].
    + split; [fills|]. split; [discriminate|two_no].
    + split; [|split; [|exact I]]; (split; [fills|]); (split; [discriminate|]); [two_no|]. intros _ f H. apply X. cbn in *. tauto.
    + split; [|exact I]. split; [exact I|]. split; [|exact I]. split; [fills|]. split; [discriminate|two_no].
  - vm_compute. reflexivity.
  - vm_compute. reflexivity.
Qed.

(** A filter that is rejected: DATE of a literal that is no date. *)
Example C46_example_rejected : exists o x, let f := one (cmpE (fs "a") OLt (SCall (COne false NDate (AValue (VStr (s2b "soon")))))) in
  allBasic basicLits f /\ ~ allBasic (basicOk o x) f.
Proof.
  exists noOracle, noEnv. split; [cbn; tauto|]. intro H. cbn in H. destruct H as [[[_ [_ [[z X]|[X|[X|X]]]]] _] _]; cbn in X; discriminate.
Qed.

(** ** Where the answer is not the meaning *)

(** [TRUE] matches nothing. *)
Theorem C46_true_refuted : forall o x, let f := one tT in
  allBasic basicLits f /\ allBasic (basicOk o x) f /\ allBasic (basicBuilds o x) f /\ means o x exDoc f = true
  /\ runText o x f "{""a"":1,""b"":5}" = Ok (Some false).
Proof.
  intros o x. split; [|split; [|split; [|split]]]; try (vm_compute; tauto).
Qed.
(** [a = 5 OR TRUE] neither. *)
Theorem C46_or_true_refuted : forall o x, let f := FOr (FAnd (TCond (cmpE (fs "a") (OEq false) (vi 5))) []) [FAnd (TCond tT) []] in
  means o x exDoc f = true /\ runText o x f "{""a"":1,""b"":5}" = Ok (Some false).
Proof.
  intros o x. split; [cbn [means meansConj meansTerm meansCond tT means1 existsb forallb]; now rewrite orb_true_r|]. vm_compute. reflexivity.
Qed.
(** A field missing below arithmetic is computed with: [z + b < 9] holds. *)
Theorem C46_missing_refuted : forall o x, let f := one (cmpE (SField (FTwo (fd "z") Plus (fd "b"))) OLt (vi 9)) in
  means o x exDoc f = false /\ runText o x f "{""a"":1,""b"":5}" = Ok (Some true).
Proof. intros o x. split; vm_compute; reflexivity. Qed.
(** A field that is there but an empty array counts as missing. *)
Theorem C46_empty_refuted : forall o x, let f := one (CBasic (BMissing false (fs "a"))) in
  means o x (obj [("a", arr [])]) f = false /\ runText o x f "{""a"":[]}" = Ok (Some true).
Proof. intros o x. split; vm_compute; reflexivity. Qed.
(** Dividing by a field that is zero crashes. *)
Theorem C46_division_refuted : forall o x, let f := one (cmpE (SField (FNumL (NInt false 6) Modulo (fd "a"))) (OEq false) (vi 1)) in
  allBasic basicLits f /\ allBasic (basicOk o x) f /\ allBasic (basicBuilds o x) f /\ runText o x f "{""a"":0}" = Panic.
Proof.
  intros o x. split; [|split; [|split]]; try (cbn; lia); try (cbn; tauto).
  - cbn [allBasic allConj allTerm allCond one cmpE]. unfold basicBuilds. repeat split; pfree.
Qed.

(** ** Where building crashes *)

(** A pattern that does not compile. *)
Theorem C53_pattern_refuted : forall o x s, ~ lookaround s -> o_regexCompiles o s = false ->
  let f := one (CBasic (BRegex (AField (FPlain (fd "a"))) (VStr s))) in
  allBasic basicLits f /\ allBasic (basicOk o x) f /\ filterMatcher o x (tree f) = Panic.
Proof.
  intros o x s HN HC f. assert (allBasic basicLits f) as HL by (cbn; tauto). assert (allBasic (basicOk o x) f) as HK by (cbn; tauto).
  split; auto. split; auto. unfold filterMatcher. change (outputExpression o x (tree f)) with (outInner o x (tFilter f)).
  destruct (out_filter o x f HL) as [[-> _]|[_ N]]; [|contradiction]. cbn [obind].
  change (xFilter x f) with (XOr [XAnd [XCmp CLike (XField 0 [s2b "a"]) (pattern x (VStr s))]]). unfold pattern. cbn [valueText].
  destruct (tokenIsPcre s) eqn:E; [apply pcre_iff in E; contradiction|].
  enough (transform o [XOr [XAnd [XCmp CLike (XField 0 [s2b "a"]) (XRegex s)]]] = Panic) as -> by reflexivity.
  clear -HC. destruct o. cbn in HC. vm_compute. now rewrite HC.
Qed.
Example C53_pattern_example : ~ lookaround (s2b "(") /\ o_regexCompiles noOracle (s2b "(") = false.
Proof. split; [|reflexivity]. intro H. apply pcre_iff in H. vm_compute in H. discriminate. Qed.
(** [a = a.b] *)
Theorem C53_prefix_refuted : forall o x, let f := one (cmpE (fs "a") (OEq false) (SField (FPlain (Field false (nm "a") [nm "b"])))) in
  allBasic basicLits f /\ allBasic (basicOk o x) f /\ filterMatcher o x (tree f) = Panic.
Proof. intros o x. split; [cbn; tauto|]. split; [cbn; tauto|]. vm_compute. reflexivity. Qed.

Print Assumptions C46_translates.
Print Assumptions C46_match.
Print Assumptions C46_true_refuted.
Print Assumptions C46_or_true_refuted.
Print Assumptions C46_missing_refuted.
Print Assumptions C46_empty_refuted.
Print Assumptions C46_division_refuted.
Print Assumptions C53_builds.
Print Assumptions C53_pattern_refuted.
Print Assumptions C53_prefix_refuted.
