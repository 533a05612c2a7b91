(** C75, C76: the reference matcher. *)
From Coq Require Import String.
From Verif Require Import Base MTokenizer MLit MFastVal SEvents MExpr MExprJson MBinTree MSlow SSlow PSlow SRef PRef.
From Coq Require Import List NArith ZArith Arith Lia Bool.
From Coq Require Import Floats.SpecFloat.
Import ListNotations.
Open Scope nat_scope.

(** C75.  However often a matcher was used before, with or without Reset and whether or not
    it answered, it answers as a new one; if it answers, also for each expression. *)
Theorem C75_reuse : forall unmarshal es m data m1 r1 m2 r2, used unmarshal es m ->
  slowMatch unmarshal data m = (m1, r1) -> slowMatch unmarshal data (newSlow es) = (m2, r2) ->
  r1 = r2 /\ forall b i, r1 = Ok b -> slowExpressionMatched m1 i = slowExpressionMatched m2 i.
Proof.
  intros unmarshal es m data m1 r1 m2 r2 HU H1 H2. destruct (reuse _ _ _ _ _ _ _ _ HU H1 H2) as [A B]. split; [exact A|]. intros b i ->. unfold slowExpressionMatched. now rewrite B by eauto.
Qed.
(** C75.  After Reset the results of the expressions are those of a new matcher too. *)
Theorem C75_reset : forall unmarshal es m i, used unmarshal es m -> slowExpressionMatched (resetSlow m) i = slowExpressionMatched (newSlow es) i.
Proof.
  intros unmarshal es m i HU. destruct (used_ok _ _ _ HU) as [_ [L _]]. unfold slowExpressionMatched, resetSlow, newSlow. cbn [sl_matches]. rewrite <- L. f_equal.
  generalize (sl_matches m). clear. induction l as [|x l IH]; [reflexivity|]. cbn [map length repeat]. now rewrite IH.
Qed.

(** C76.  When every filter has an answer, Match tells whether there is a filter and all
    answer true, and ExpressionMatched has the answers. *)
Theorem C76_meaning : forall unmarshal es m data d bs m' res, used unmarshal es m -> Forall (unshadowed [0]) es -> unmarshal data = Some d ->
  Forall2 (rootAnswers (docOnly d)) es bs -> slowMatch unmarshal data m = (m', res) ->
  res = Ok (together bs) /\ forall i, slowExpressionMatched m' i = idx bs i.
Proof.
  intros unmarshal es m data d bs m' res HU HS HD HA HM. destruct (used_ok _ _ _ HU) as [E [L O]]. unfold slowMatch in HM. rewrite HD, E in HM.
  destruct (rootLoop (vset 0 d (sl_vars m)) (sl_matches m) false 0 es) as [[vs ms] r] eqn:HR. injection HM as <- <-.
  destruct (proj2 (rootLoop_answers es _ (docOnly d) [0] [] _ vs ms r HS (start_env d _ O) (doc_null d) L HR (together bs) bs)) as [A B]; [auto|]. split; [exact A|]. intro i. unfold slowExpressionMatched. cbn [sl_matches]. now rewrite B.
Qed.
(** C76.  Match answers only then. *)
Theorem C76_only : forall unmarshal es m data m' r, used unmarshal es m -> Forall (unshadowed [0]) es -> slowMatch unmarshal data m = (m', Ok r) ->
  exists d bs, unmarshal data = Some d /\ Forall2 (rootAnswers (docOnly d)) es bs /\ r = together bs /\ forall i, slowExpressionMatched m' i = idx bs i.
Proof.
  intros unmarshal es m data m' r HU HS HM. destruct (used_ok _ _ _ HU) as [E [L O]]. unfold slowMatch in HM. destruct (unmarshal data) as [d|] eqn:HD; [|discriminate]. rewrite E in HM.
  destruct (rootLoop (vset 0 d (sl_vars m)) (sl_matches m) false 0 es) as [[vs ms] r'] eqn:HR. injection HM as <- ->.
  destruct (proj1 (rootLoop_answers es _ (docOnly d) [0] [] _ vs ms _ HS (start_env d _ O) (doc_null d) L HR r ms)) as [A B]; [auto|]. exists d, ms. auto.
Qed.
(** C76.  It does not crash on filters of AND, OR, ANY and comparisons whose loops run over
    arrays and objects. *)
Theorem C76_no_crash : forall unmarshal es m data m' res, used unmarshal es m -> Forall (unshadowed [0]) es ->
  (forall d, unmarshal data = Some d -> Forall (rootSteady (docOnly d)) es) -> slowMatch unmarshal data m = (m', res) -> res <> Panic.
Proof.
  intros unmarshal es m data m' res HU HS HC HM. destruct (used_ok _ _ _ HU) as [E [L O]]. unfold slowMatch in HM. destruct (unmarshal data) as [d|]; [|injection HM as _ <-; discriminate]. rewrite E in HM.
  pose proof (rootLoop_calm es (vset 0 d (sl_vars m)) (docOnly d) [0] (sl_matches m) false 0 HS (start_env d _ O) (doc_null d) (HC d eq_refl)) as P.
  destruct (rootLoop (vset 0 d (sl_vars m)) (sl_matches m) false 0 es) as [[vs ms] r]. injection HM as _ <-. exact P.
Qed.

(** ** Not in general *)
(** 1, 2 and 3. *)
Definition num (n : nat) : float :=
  match n with 1 => S754_finite false 4503599627370496 (-52) | 2 => S754_finite false 4503599627370496 (-51) | _ => S754_finite false 6755399441055744 (-51) end.
Definition fe (r : nat) (l : list string) : expr := XField r (map s2b l).
Definition eqn (e : expr) (z : nat) : expr := XCmp CEq e (XValue (GFloat (num z))).
(** The document is its first byte's meaning: "1" for {"a": 1}, "x" for {"a": "x"}. *)
Definition two (data : bytes) : option jv := Some (JObj [(s2b "a", if bytes_eqb data (s2b "1") then JNum (num 1) else JStr (s2b "x"))]).
(** C75.  A document that is refused leaves the results of the document before it. *)
Theorem C75_refused_refuted : exists unmarshal es d1 d2 m1 m2 m3, slowMatch unmarshal d1 (newSlow es) = (m1, Ok true) /\ slowMatch unmarshal d2 m1 = (m2, Err) /\ slowMatch unmarshal d2 (newSlow es) = (m3, Err) /\
  slowExpressionMatched m2 0 = Ok true /\ slowExpressionMatched m3 0 = Ok false.
Proof. exists two, [eqn (fe 0 ["a"]%string) 1], (s2b "1"), (s2b "2"). do 3 eexists. vm_compute. auto 8. Qed.
(** [any $1 in a ((any $1 in $1.b ($1 = 1)) OR $1.c = 2)] *)
Definition exShadow (v : nat) : expr := XLoop LAny 1 (fe 0 ["a"]%string) (XOr [XLoop LAny v (fe 1 ["b"]%string) (eqn (fe v []) 1); eqn (fe 1 ["c"]%string) 2]).
Definition exShadowDoc : jv := JObj [(s2b "a", JArr [JObj [(s2b "b", JArr [JNum (num 3)]); (s2b "c", JNum (num 2))]])].
Lemma exShadow_answers : forall v, v = 1 \/ v = 2 -> rootAnswers (docOnly exShadowDoc) (exShadow v) true.
Proof.
  intros v HV. exists (JArr [JObj [(s2b "b", JArr [JNum (num 3)]); (s2b "c", JNum (num 2))]]), [JObj [(s2b "b", JArr [JNum (num 3)]); (s2b "c", JNum (num 2))]].
  split; [apply v_field; repeat constructor|]. split; [constructor|]. eexists [], _, []. split; [reflexivity|]. split; [constructor|].
  eexists [_], _, []. split; [reflexivity|]. split.
  - constructor; [|constructor]. exists (JArr [JNum (num 3)]), [JNum (num 3)]. split; [apply v_field; repeat constructor|]. split; [constructor|]. constructor; [|constructor]. split; [discriminate|].
    exists (SV (JNum (num 3))), (SV (JNum (num 1))), Gt. split; [|split; [constructor|split; [apply (od_number (num 3) (num 1))|reflexivity]]].
    destruct HV as [->| ->]; apply v_field; constructor.
  - split; [discriminate|]. exists (SV (JNum (num 2))), (SV (JNum (num 2))), Eq. split; [apply v_field; repeat constructor|]. split; [constructor|split; [apply (od_number (num 2) (num 2))|reflexivity]].
Qed.
(** C76.  A loop that uses the variable of a loop around it again takes its value away. *)
Theorem C76_shadow_refuted : exists es d, Forall2 (rootAnswers (docOnly d)) es [true] /\ exists m, slowMatch (fun _ => Some d) [] (newSlow es) = (m, Err).
Proof. exists [exShadow 1], exShadowDoc. split; [constructor; [apply exShadow_answers; auto|constructor]|]. eexists. vm_compute. reflexivity. Qed.
(** C76.  NOT, tests for presence, and loops over other values crash it. *)
Theorem C76_crash_refuted : exists e1 e2 e3 d, forall e, In e [e1; e2; e3] -> exists m, slowMatch (fun _ => Some d) [] (newSlow [e]) = (m, Panic).
Proof.
  exists (XNot (eqn (fe 0 ["a"]%string) 1)), (XExists (fe 0 ["a"]%string)), (XLoop LAny 1 (fe 0 ["a"]%string) (eqn (fe 1 []) 1)), (JObj [(s2b "a", JNum (num 1))]).
  intros e [<-|[<-|[<-|[]]]]; eexists; vm_compute; reflexivity.
Qed.

(** ** Concrete cases *)
Definition ex75 : list expr := [eqn (fe 0 ["a"]%string) 1].
Definition ex75m1 : slow := fst (slowMatch two (s2b "1") (newSlow ex75)).
Definition ex75m2 : slow := fst (slowMatch two (s2b "2") ex75m1).
Definition ex75m3 : slow := fst (slowMatch two (s2b "1") ex75m2).
Example C75_example : used two ex75 ex75m3 /\ slowMatch two (s2b "1") (newSlow ex75) = (ex75m1, Ok true) /\ slowMatch two (s2b "2") ex75m1 = (ex75m2, Err) /\ slowMatch two (s2b "1") ex75m2 = (ex75m3, Ok true).
Proof.
  assert (slowMatch two (s2b "1") (newSlow ex75) = (ex75m1, Ok true)) as A by (vm_compute; reflexivity). assert (slowMatch two (s2b "2") ex75m1 = (ex75m2, Err)) as B by (vm_compute; reflexivity).
  assert (slowMatch two (s2b "1") ex75m2 = (ex75m3, Ok true)) as C by (vm_compute; reflexivity). split; [|auto].
  apply (us_match two ex75 ex75m2 _ _ _) in C; [exact C| |discriminate]. apply (us_match two ex75 ex75m1 _ _ _) in B; [exact B| |discriminate]. apply (us_match two ex75 (newSlow ex75) _ _ _) in A; [exact A|constructor|discriminate].
Qed.
(** The same filter with another variable inside. *)
Example C76_example : Forall (unshadowed [0]) [exShadow 2] /\ Forall2 (rootAnswers (docOnly exShadowDoc)) [exShadow 2] [true] /\ Forall (rootSteady (docOnly exShadowDoc)) [exShadow 2] /\
  exists m, slowMatch (fun _ => Some exShadowDoc) [] (newSlow [exShadow 2]) = (m, Ok true).
Proof.
  split; [|split; [constructor; [apply exShadow_answers; auto|constructor]|split]].
  - constructor; [|constructor]. cbn. intuition discriminate.
  - constructor; [|constructor]. assert (forall w r q v j, pathTo (w r) q v -> value w (XField r q) (SV j) -> j = v) as HV.
    { intros w r q v j P V. inversion V; subst. apply walk_path in P. rewrite <- walk_path in H0. congruence. }
    split; [unfold fe; eauto|]. intros j V. eapply HV in V; [|repeat constructor]. subst j. eexists. split; [constructor|]. intros x [<-|[]]. cbn [steady eqn]. split; [|split; [|exact I]].
    + split; [unfold fe; eauto|]. intros j V. eapply HV in V; [|repeat constructor]. subst j. eexists. split; [constructor|]. intros x [<-|[]]. split; [discriminate|]. split; exact I.
    + split; [discriminate|]. split; exact I.
  - eexists. vm_compute. reflexivity.
Qed.
Print Assumptions C75_reuse.
Print Assumptions C75_reset.
Print Assumptions C75_refused_refuted.
Print Assumptions C76_meaning.
Print Assumptions C76_only.
Print Assumptions C76_no_crash.
Print Assumptions C76_shadow_refuted.
Print Assumptions C76_crash_refuted.
