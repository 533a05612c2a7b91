(** Simple filters with other spacing: final statements (C72). *)
From Coq Require Import String.
From Verif Require Import Base MTokenizer SJson MLit MFastVal MMath SFormula SEvents MExpr MSimple SUnicode SSimple STight
  PSimpleWords PSimple PSimpleChain PTight PTightChain TSimple.
From Coq Require Import List NArith ZArith Arith Lia Bool.
Import ListNotations.
Open Scope nat_scope.

(** A chain of tests becomes the same expression however its words are set apart, and whether
    or not operators touch their neighbours. *)
Theorem C72_spacing : forall o c t, tightOk o c -> spread (tightChain c) t ->
  (oneSymbol (plain c) -> becomes o t (rightNest (ch_first (plain c)) (ch_rest (plain c))))
  /\ (~ oneSymbol (plain c) -> becomes o t (group false (atomExpr (ch_first (plain c))) (ch_rest (plain c))))
  /\ (~ oneSymbol (plain c) -> Forall (fun p => binaryb (snd p) = true) (removelast (ch_rest (plain c))) -> becomes o t (leftNest (ch_first (plain c)) (ch_rest (plain c)))).
Proof.
  intros o c t HC HT. destruct (parse_tight o c t HC HT) as [N HN]. pose proof (short_spec (plain c)) as HS. split; [|split].
  - intro H. exists N. intros fuel Hf. rewrite HN by auto. apply HS in H. now rewrite H, group_right.
  - intro H. exists N. intros fuel Hf. rewrite HN by auto. destruct (shortCircuit (chainWords (plain c))); [exfalso; apply H; now apply HS|reflexivity].
  - intros H HB. exists N. intros fuel Hf. rewrite HN by auto. destruct (shortCircuit (chainWords (plain c))); [exfalso; apply H; now apply HS|].
    unfold leftNest. now rewrite group_left.
Qed.
(** Two ways to write the same tests. *)
Theorem C72_same : forall o c1 c2 t1 t2, tightOk o c1 -> tightOk o c2 -> plain c1 = plain c2 -> spread (tightChain c1) t1 -> spread (tightChain c2) t2 ->
  exists e, becomes o t1 e /\ becomes o t2 e.
Proof.
  intros o c1 c2 t1 t2 H1 H2 E S1 S2. destruct (parse_tight o c1 t1 H1 S1) as [N1 HN1]. destruct (parse_tight o c2 t2 H2 S2) as [N2 HN2]. rewrite <- E in HN2.
  eexists. split; [exists N1; exact HN1|exists N2; exact HN2].
Qed.
(** One comparison: with and without a space before and after the operator. *)
Definition gap (b : bool) : bytes := if b then [32%N] else [].
Lemma spread_join : forall ws, spread ws (joinBy [32%N] ws).
Proof.
  assert (white []) as W0 by (exists []; split; [constructor|reflexivity]).
  assert (white [32%N]) as W1 by (exists [32%N]; split; [repeat constructor; cbn; tauto|reflexivity]).
  intros [|w ws]; [now constructor|].
  assert (exists t, joinBy [32%N] (w :: ws) = w ++ t /\ trail ws t) as (t & -> & HT); [|now apply (spread_words [] w ws t)].
  revert w. induction ws as [|x ws IH]; intro w; [exists []; cbn [joinBy]; rewrite app_nil_r; split; [reflexivity|now constructor]|].
  destruct (IH x) as (t & E & HT). exists ([32%N] ++ x ++ t). split; [|constructor; auto; discriminate].
  change (joinBy [32%N] (w :: x :: ws)) with (w ++ [32%N] ++ joinBy [32%N] (x :: ws)). now rewrite E.
Qed.
Lemma join_front : forall x v vs, joinBy [32%N] ((x ++ v) :: vs) = x ++ joinBy [32%N] (v :: vs).
Proof. intros x v [|y vs]; [reflexivity|]. cbn [joinBy]. now rewrite <- app_assoc. Qed.
Theorem C72_compare : forall o p op v (before after : bool), pathOk p -> without (pathText p) [33; 38; 124; 126]%N -> testOk o (TCmp op v) ->
  becomes o (pathText p ++ gap before ++ copText op ++ gap after ++ valText v) (XCmp (copCmp op) (XField 0 (pathOf p)) (XValue (valGo v))).
Proof.
  intros o p op v before after HP HW HT. set (a := {| a_subj := ALeaf (LPath p); a_test := TCmp op v |}). set (g := {| sp_before := before; sp_after := after |}).
  destruct (parse_tight o {| t_first := (g, a); t_rest := [] |} (pathText p ++ gap before ++ copText op ++ gap after ++ valText v)) as [N HN].
  - split; [split; [split; [exact HP|exact HT]|constructor]|]. split; [|constructor]. split; [|intros _; exact I]. intros _. split; [apply HP|exact HW].
  - assert (pathText p ++ gap before ++ copText op ++ gap after ++ valText v = joinBy [32%N] (tightWords g a)) as ->; [|unfold tightChain; cbn [t_first t_rest fst snd]; rewrite app_nil_r; apply spread_join].
    rewrite <- valWords_text. unfold tightWords, a, g. cbn [a_test a_subj symbolOf sp_before sp_after argText leafText]. pose proof (valWords_ne v) as HN. destruct (valWords v) as [|w ws]; [contradiction|].
    destruct before, after; cbn [gap app].
    + reflexivity.
    + change (joinBy [32%N] (pathText p :: (copText op ++ w) :: ws)) with (pathText p ++ [32%N] ++ joinBy [32%N] ((copText op ++ w) :: ws)). now rewrite join_front.
    + change (joinBy [32%N] ((pathText p ++ copText op) :: w :: ws)) with ((pathText p ++ copText op) ++ [32%N] ++ joinBy [32%N] (w :: ws)). now rewrite <- app_assoc.
    + rewrite (app_assoc (pathText p) (copText op) w), join_front. now rewrite <- app_assoc.
  - exists N. exact HN.
Qed.

(** ** Examples *)
Definition exTight : tchain :=
  {| t_first := ({| sp_before := false; sp_after := false |}, cmpA exPath PGe (SInt true (s2b "70")));
     t_rest := [(JAnd, ({| sp_before := true; sp_after := false |}, cmpA (pl "name") PNe (SStr false [s2b "it"; s2b "is"; s2b "so"])));
                (JAnd, ({| sp_before := true; sp_after := true |}, {| a_subj := ALeaf (LPath (pl "z")); a_test := TExists |}));
                (JAnd, ({| sp_before := false; sp_after := true |}, cmpA (pl "ok") PEq (SBool true)))] |}.
(** Tab, new line, vertical tab, form feed, no-break space, ideographic space. *)
Definition exTightText : bytes :=
  [9; 32]%N ++ s2b "a.`b`[3][12]>=-70" ++ [10]%N ++ s2b "&&" ++ [11]%N ++ s2b "name" ++ [12]%N ++ s2b "!='it" ++ [194; 160]%N ++ s2b "is" ++ [32]%N ++ s2b "so'"
  ++ [227; 128; 128]%N ++ s2b "&&" ++ [32; 32]%N ++ s2b "z" ++ [32]%N ++ s2b "EXISTS" ++ [13; 10]%N ++ s2b "&&" ++ [32]%N ++ s2b "ok==" ++ [32]%N ++ s2b "true" ++ [10]%N.
Ltac whiteOk l := exists l; split; [repeat constructor; cbn; tauto|reflexivity].
Ltac next g l := apply (trail_word g); [whiteOk l|discriminate|].
Example C72_example : forall o, tightOk o exTight /\ plain exTight = exChain /\ oneSymbol (plain exTight) /\ spread (tightChain exTight) exTightText.
Proof.
  intro o. assert (plain exTight = exChain) as E by reflexivity. destruct (C54_example o) as (H1 & _ & H2 & _). split; [|split; [exact E|split; [rewrite E; exact H2|]]].
  - split; [rewrite E; exact H1|]. split.
    + split; [|intros _; exact I]. intros _. split; [apply (exPath_ok)|]. repeat constructor; cbn; intuition discriminate.
    + repeat (apply Forall_cons; [split; [first [discriminate|intros _; split; [apply (exOk_ok o)|repeat constructor; cbn; intuition discriminate]]|intros _; exact I]|]). constructor.
  - apply (spread_words [9; 32]%N); [whiteOk [9; 32]%N|]. next [10]%N [10]%N. next [11]%N [11]%N. next [12]%N [12]%N. next [194; 160]%N [160]%N. next [32]%N [32]%N.
    next [227; 128; 128]%N [12288]%N. next [32; 32]%N [32; 32]%N. next [32]%N [32]%N. next [13; 10]%N [13; 10]%N. next [32]%N [32]%N. next [32]%N [32]%N. apply trail_end. whiteOk [10]%N.
Qed.
Example C72_compare_example : forall o, pathOk exPath /\ without (pathText exPath) [33; 38; 124; 126]%N /\ testOk o (TCmp PGe (SInt true (s2b "70")))
  /\ becomes o (s2b "a.`b`[3][12]>=-70") (XCmp CGe (XField 0 [s2b "a"; s2b "b"; s2b "[3]"; s2b "[12]"]) (XValue (GInt (-70)))).
Proof.
  intro o. split; [exact exPath_ok|]. split; [repeat constructor; cbn; intuition discriminate|]. split; [apply (exAtom_ok o)|].
  apply (C72_compare o exPath PGe (SInt true (s2b "70")) false false); [exact exPath_ok|repeat constructor; cbn; intuition discriminate|apply (exAtom_ok o)].
Qed.

(** ** Where it does matter *)

(** A call whose name has an operator in it (FLO-OR), before the operator. *)
Theorem C72_name_refuted : forall o,
  becomes o (s2b "FLOOR(a) = 5") (XCmp CEq (XFunc (s2b "mathFloor") [XField 0 [s2b "a"]]) (XValue (GInt 5))) /\ gives o (s2b "FLOOR(a)=5") Err.
Proof. intro o. split; ran. Qed.
(** Any call after it. *)
Theorem C72_call_refuted : forall o,
  becomes o (s2b "a = ABS(b)") (XCmp CEq (XField 0 [s2b "a"]) (XFunc (s2b "mathAbs") [XField 0 [s2b "b"]])) /\ gives o (s2b "a=ABS(b)") Err.
Proof. intro o. split; ran. Qed.
(** Tests joined without spaces, the first ending and the last ending with a quote: one string. *)
Theorem C72_join_refuted : forall o,
  becomes o (s2b "a=""x"" && b=""y""") (XAnd [XCmp CEq (XField 0 [s2b "a"]) (XValue (GString (s2b "x"))); XCmp CEq (XField 0 [s2b "b"]) (XValue (GString (s2b "y")))])
  /\ becomes o (s2b "a=""x""&&b=""y""") (XCmp CEq (XField 0 [s2b "a"]) (XValue (GString (s2b "x""&&b=""y")))).
Proof. intro o. split; ran. Qed.

Print Assumptions C72_spacing.
Print Assumptions C72_same.
Print Assumptions C72_compare.
Print Assumptions C72_name_refuted.
Print Assumptions C72_call_refuted.
Print Assumptions C72_join_refuted.
