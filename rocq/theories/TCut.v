(** Documents that break off, and text behind documents (C67). *)
From Coq Require Import String.
From Verif Require Import Base PTokenizer MTokenizer SJson MLit MFastVal MMath SFormula SEvents SMerge MBinTree MSession MExpr SCompile MTransform SFilter
  MMatcher MTree SDoc SSat SSem SEarly SProper SSafe PTree PTrace PWf PExpr PCompile PPlace PFun PSites PHeap PEval PEarly PMatch PSem PCheck PReset PBal PCut TReset
  SExamples TMatch TSafe TEarly.
From Coq Require Import List NArith ZArith Arith Lia Bool.
Import ListNotations.
Open Scope nat_scope.

(** The text is that of no JSON document. *)
Definition notJson (txt : bytes) : Prop := forall w1 v w2, ws w1 -> wf_cst v -> ws w2 -> txt <> doc_text w1 v w2.

(** ** A text that ends between two members of the document *)

(** Such a text is not a document, and no error is reported: the answer is that for
    the object of the members that are there, as if it had been closed. *)
Theorem C67_unfinished : forall o es w1 ms w0 w, supported o es -> ws w1 -> ws w -> ms <> [] -> wf_cst (CObj ms w0) -> benign es (CObj ms w0) ->
  Forall (fun e => e = XFalse \/ anchored e) es ->
  notJson (cut_text w1 ms ++ w) /\
  answers o es (cut_text w1 ms ++ w) (existsb (truth o (CObj ms w0) (CObj ms w0)) es) (truth o (CObj ms w0) (CObj ms w0)).
Proof.
  intros o es w1 ms w0 w HS W1 W Hms WD (Hobj & HDi & HT & HL & HF) HE. destruct (gen_reg o es HS) as [Hne HX]. destruct HS as (_ & HC & HR).
  assert (Forall wf_mem ms) as WM by (apply wf_obj in WD; tauto).
  replace (cut_text w1 ms ++ w) with (w1 ++ 123%N :: render_mems true ms ++ w) by (unfold cut_text; rewrite <- app_assoc; reflexivity).
  split; [intros w1' v w2 A B C; now apply unclosed|].
  set (doc := CObj ms w0) in *.
  destruct (genExprs es) as [|g gs] eqn:Eg; [contradiction|].
  assert (docOk o doc) as HD by now apply wf_docOk.
  assert (forall e, In e es -> sat o doc e = truth o doc doc e) as ST.
  { intros e He. rewrite Forall_forall in HC, HR, HF. eapply sat_truth; eauto. }
  destruct (tree_status o es g gs doc Eg) as (D & H & ED & EH & t2 & _ & _ & _ & _ & _ & EA); auto.
  1, 3, 4: rewrite <- Eg; now apply gen_forall.
  { rewrite <- Eg. rewrite gen_paths by auto. now apply gen_forall. }
  destruct EA as (x & ta & out & tb & b & d & Ex & Nx & (f2 & TO) & Est & Ed & Etr & Eall).
  { unfold doc. eauto. }
  { rewrite <- Eg. apply Forall_forall. intros e He. apply filter_In in He as [He Hk]. rewrite Forall_forall in HE.
    destruct (HE e He) as [-> | X]; [discriminate|exact X]. }
  { unfold doc. cbn [items]. destruct ms; [contradiction|discriminate]. }
  assert (existsb (sat o doc) (g :: gs) = existsb (truth o doc doc) es) as EX.
  { rewrite <- (gen_exists (truth o doc doc) es), Eg by auto. assert (forall x, In x (g :: gs) -> sat o doc x = truth o doc doc x) as Y.
    { intros y Hy. apply ST. rewrite <- Eg in Hy. now apply gen_sub. }
    clear -Y. induction (g :: gs) as [|y l IH]; auto. cbn [existsb]. rewrite Y by now left. rewrite IH; auto. intros; apply Y; now right. }
  set (txt := w1 ++ 123%N :: render_mems true ms ++ w).
  exists D. split; auto. intros s0 Hs0. exists (S f2). intros fuel Hfu. destruct fuel as [|fuel]; [lia|].
  destruct (TO fuel) as [TO1 TO2]; [lia|].
  destruct (match_end o H (d_tree D) w1 ms w0 w W1 WM (num_stop_ws_tail _ W) fuel D (newMatcher D) (tFresh (d_slots D) (d_tree D)) x ta out tb b d
    (existsb (sat o doc) (g :: gs)) EH eq_refl (rel_fresh _ D) Ex Nx TO1 (fun _ => W) TO2) as (s & Es & Esd); auto.
  { now rewrite Est. }
  rewrite EX in Es. fold txt in Es.
  assert (forall i e, nth_error es i = Some e -> e <> XFalse -> expressionMatched D s i = Ok (truth o doc doc e)) as Ei'.
  { intros i e Hi Hn. rewrite <- ST by (eapply nth_error_In; eauto). apply Eall; auto.
    destruct (HX e) as [E|E]; auto; [eapply nth_error_In; eauto|contradiction]. }
  destruct Hs0 as [-> | (h & Hh & ->)]; [eauto|].
  pose proof (C22_reset_is_fresh o D h (S fuel) txt Hh) as X. rewrite Es in X.
  destruct (match_ (S fuel) o D txt (resetMatcher h)) as [[sr r1]| | |]; try contradiction.
  destruct X as (-> & _ & _ & _ & _ & X & _). exists sr. split; auto. intros i e Hi Hn. rewrite X. auto.
Qed.

(** So a document that has lost its end after some member is answered like the
    shorter document: an answer that the whole document may contradict. *)
Theorem C67_prefix : forall o es w1 ms1 ms2 w0 w, supported o es -> ws w1 -> ws w -> ms1 <> [] -> wf_cst (CObj (ms1 ++ ms2) w0) ->
  benign es (CObj ms1 w0) -> benign es (CObj (ms1 ++ ms2) w0) -> Forall (fun e => e = XFalse \/ anchored e) es ->
  answers o es (cut_text w1 ms1 ++ w) (existsb (truth o (CObj ms1 w0) (CObj ms1 w0)) es) (truth o (CObj ms1 w0) (CObj ms1 w0))
  /\ answers o es (doc_text w1 (CObj (ms1 ++ ms2) w0) w) (existsb (truth o (CObj (ms1 ++ ms2) w0) (CObj (ms1 ++ ms2) w0)) es)
       (truth o (CObj (ms1 ++ ms2) w0) (CObj (ms1 ++ ms2) w0)).
Proof.
  intros o es w1 ms1 ms2 w0 w HS W1 W Hn WD HB1 HB2 HA. split; [|now apply match_truth].
  apply C67_unfinished; auto. apply wf_obj in WD as [Ww WM]. apply Forall_app in WM as [WM1 _]. apply wf_obj. auto.
Qed.

(** ** A text that goes on behind the document *)

(** Whatever follows a complete document is not looked at: the answer is that for
    the document - if what follows does not lengthen a document that is a number. *)
Theorem C67_trailing : forall o es w1 doc w2, supported o es -> ws w1 -> wf_cst doc -> num_stop w2 -> benign es doc ->
  answers o es (doc_text w1 doc w2) (existsb (truth o doc doc) es) (truth o doc doc).
Proof. exact match_truth_tail. Qed.
(** And for any document and filters at all, supported or not: an answer, no error. *)
Theorem C67_trailing_answers : forall o es D w1 v w2 s,
  transform o es = Ok D -> forallb proper es = true -> Forall functionsSafe es -> (exists e, In e es /\ e <> XTrue /\ e <> XFalse) ->
  ws w1 -> wf_cst v -> num_stop w2 -> usable o D s ->
  exists F s' b, forall fuel, F <= fuel -> match_ fuel o D (doc_text w1 v w2) s = Ok (s', Some b).
Proof. exact wellformed_answers. Qed.

(** ** Examples *)
Definition cutF : list expr := [XExists (fld 0 ["c"]%string); XCmp CEq (fld 0 ["a"]%string) (ci 2)].
Definition cutM : list (mem cst) := match obj [("a", lit "1")]%string with CObj ms _ => ms | _ => [] end.
Definition cutM2 : list (mem cst) := match obj [("a", lit "1"); ("c", lit "2")]%string with CObj ms _ => ms | _ => [] end.
Lemma cut_anchored : Forall (fun e => e = XFalse \/ anchored e) cutF.
Proof.
  apply Forall_cons; [|apply Forall_cons; [|apply Forall_nil]]; right; vm_compute; (split; [discriminate|intuition discriminate]).
Qed.
Example C67_example : forall o, supported o cutF /\ wf_cst (CObj cutM []) /\ benign cutF (CObj cutM []) /\ benign cutF (CObj cutM2 [])
  /\ existsb (truth o (CObj cutM []) (CObj cutM [])) cutF = false /\ existsb (truth o (CObj cutM2 []) (CObj cutM2 [])) cutF = true.
Proof.
  intro o. split; [apply supportedb_ok; vm_compute; reflexivity|]. split; [apply wfb_ok; vm_compute; reflexivity|].
  split; [apply benignb_ok; vm_compute; reflexivity|]. split; [apply benignb_ok; vm_compute; reflexivity|]. split; vm_compute; reflexivity.
Qed.

(** The property "a text that is not a JSON document is not answered" does not hold,
    nor does "what is answered of the first bytes of a document is the answer for the
    document". *)
Theorem C67_broken_is_reported_refuted : exists es txt, notJson txt /\ forall o, exists f, answers o es txt false f.
Proof.
  exists cutF, (s2b "{""a"":1"). split.
  - intros w1 v w2 W1 WV W2. apply (unclosed [] cutM [] w1 v w2); auto; try apply Forall_nil.
    assert (wf_cst (CObj cutM [])) as X by (apply wfb_ok; vm_compute; reflexivity). apply wf_obj in X. tauto.
  - intro o. destruct (C67_example o) as (X1 & X2 & X3 & _ & X4 & _).
    destruct (C67_unfinished o cutF [] cutM [] [] X1 (Forall_nil _) (Forall_nil _) ltac:(discriminate) X2 X3 cut_anchored) as [_ A].
    rewrite X4 in A. eexists. exact A.
Qed.
Theorem C67_prefix_agrees_refuted : exists es txt rest, forall o,
  (exists f, answers o es txt false f) /\ (exists f, answers o es (txt ++ rest) true f).
Proof.
  exists cutF, (s2b "{""a"":1"), (s2b ",""c"":2}"). intro o. destruct (C67_example o) as (X1 & X2 & X3 & X3' & X4 & X5).
  assert (wf_cst (CObj cutM2 [])) as X6 by (apply wfb_ok; vm_compute; reflexivity).
  destruct (C67_prefix o cutF [] cutM (skipn 1 cutM2) [] [] X1 (Forall_nil _) (Forall_nil _) ltac:(discriminate) X6 X3 X3' cut_anchored) as [A B].
  rewrite X4 in A. change (cutM ++ skipn 1 cutM2) with cutM2 in B. rewrite X5 in B. split; eexists; [exact A|exact B].
Qed.

(** The wrong bracket at the end, garbage behind a document; a break inside the
    second member's object. *)
Example C67_wrong_bracket : forall o, run o cutF "{""a"":2]" = Ok (Some true) /\ run o cutF "{""a"":1]" = Ok (Some false).
Proof. intro o. split; vm_compute; reflexivity. Qed.
Example C67_garbage : forall o, run o cutF "{""a"":2}}]:,nonsense" = Ok (Some true) /\ run o cutF "{""a"":1}}]:,nonsense" = Ok (Some false).
Proof. intro o. split; vm_compute; reflexivity. Qed.
Example C67_nested : forall o, run o [XCmp CEq (fld 0 ["c"; "e"]%string) (ci 2)] "{""a"":1,""c"":{""d"":1" = Ok (Some false).
Proof. intro o. vm_compute. reflexivity. Qed.
(** Breaks elsewhere: behind the comma or inside a member it is a crash, inside a
    word an error. *)
Example C67_elsewhere : forall o, map (run o cutF) ["{""a"":1,"; "{""a"":1,""b"""; "{""a"":1,""b"":"; "{""a"":1,""b"":tr"; "{"]%string
  = [Panic; Panic; Panic; Ok None; Panic].
Proof. intro o. vm_compute. reflexivity. Qed.
(** The condition on the filters: a test of constants, or of the document as a whole,
    is made when the document is over, which is never; if it is all there is, reading
    over the document is a crash. *)
Definition cutC : expr := XOr [XExists (fld 0 ["b"]%string); XCmp CEq (ci 1) (ci 1)].
Example C67_constants : forall o, run o [cutC] "{""a"":1}" = Ok (Some true) /\ run o [cutC] "{""a"":1" = Ok (Some false)
  /\ run o [XCmp CEq (ci 1) (ci 1)] "{""a"":1" = Panic /\ ~ anchored cutC /\ ~ anchored (XCmp CEq (ci 1) (ci 1)).
Proof.
  intro o. split; [vm_compute; reflexivity|]. split; [vm_compute; reflexivity|]. split; [vm_compute; reflexivity|].
  split; [intros (_ & _ & (X & _) & _)|intros [X _]]; apply X; reflexivity.
Qed.
Definition cutD : expr := XOr [XExists (fld 0 ["b"]%string); XExists (fld 0 [])].
Example C67_whole_document : forall o, run o [cutD] "{""a"":1}" = Ok (Some true) /\ run o [cutD] "{""a"":1" = Ok (Some false) /\ ~ anchored cutD.
Proof.
  intro o. split; [vm_compute; reflexivity|]. split; [vm_compute; reflexivity|]. intros (_ & _ & (_ & X) & _). apply X. vm_compute. auto.
Qed.

Print Assumptions C67_unfinished.
Print Assumptions C67_prefix.
Print Assumptions C67_trailing.
Print Assumptions C67_trailing_answers.
Print Assumptions C67_broken_is_reported_refuted.
Print Assumptions C67_prefix_agrees_refuted.
