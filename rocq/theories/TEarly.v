(** The answer does not wait for the rest of the document (C66). *)
From Coq Require Import String.
From Verif Require Import Base MTokenizer SJson PTokenizer MLit MFastVal MMath SFormula SEvents SMerge MBinTree MSession MExpr SCompile MTransform SFilter
  MMatcher MTree SDoc SSat SSem SEarly PTree PTrace PWf PExpr PCompile PPlace PFun PSites PHeap PEval PEarly PMatch PSem PCheck PReset PCut TReset SExamples TMatch.
From Coq Require Import List NArith ZArith Arith Lia Bool.
Import ListNotations.
Open Scope nat_scope.

(** The text of an object whose members are [ms], up to the last of them. *)
Definition cut_text (w1 : bytes) (ms : list (mem cst)) : bytes := w1 ++ 123%N :: render_mems true ms.

(** Once the members read settle every filter, the answer is given, and is that for
    the object of these members, however the text goes on - provided that it does not
    go on inside the last value: [1] followed by [2]. *)
Theorem C66_settled : forall o es w1 ms w0 tail, supported o es -> ws w1 -> wf_cst (CObj ms w0) -> benign es (CObj ms w0) ->
  settled o (CObj ms w0) es -> num_stop tail ->
  answers o es (cut_text w1 ms ++ tail) (existsb (truth o (CObj ms w0) (CObj ms w0)) es) (truth o (CObj ms w0) (CObj ms w0)).
Proof.
  intros o es w1 ms w0 tail HS W1 WD (Hobj & HDi & HT & HL & HF) HE Htl. destruct (gen_reg o es HS) as [Hne HX]. destruct HS as (_ & HC & HR).
  set (doc := CObj ms w0) in *.
  replace (cut_text w1 ms ++ tail) with (w1 ++ 123%N :: render_mems true ms ++ tail) by (unfold cut_text; rewrite <- app_assoc; reflexivity).
  destruct (genExprs es) as [|g gs] eqn:Eg; [contradiction|].
  assert (docOk o doc) as HD by now apply wf_docOk.
  assert (forall e, In e es -> sat o doc e = truth o doc doc e) as ST.
  { intros e He. rewrite Forall_forall in HC, HR, HF. eapply sat_truth; eauto. }
  destruct (tree_status o es g gs doc Eg) as (D & H & ED & EH & t2 & _ & _ & (f1 & TM) & EM & EA & _); auto.
  1, 3, 4: rewrite <- Eg; now apply gen_forall.
  { rewrite <- Eg. rewrite gen_paths by auto. now apply gen_forall. }
  destruct EA as (x & ta & Ex & Nx & f2 & TO).
  { unfold doc. eauto. }
  { rewrite <- Eg. apply Forall_forall. intros e He. apply filter_In in He as [He Hk]. unfold settled in HE. rewrite Forall_forall in HE.
    destruct (HE e He) as [-> | X]; [discriminate|exact X]. }
  assert (existsb (sat o doc) (g :: gs) = existsb (truth o doc doc) es) as EX.
  { rewrite <- (gen_exists (truth o doc doc) es), Eg by auto. assert (forall x, In x (g :: gs) -> sat o doc x = truth o doc doc x) as Y.
    { intros y Hy. apply ST. rewrite <- Eg in Hy. now apply gen_sub. }
    clear -Y. induction (g :: gs) as [|y l IH]; auto. cbn [existsb]. rewrite Y by now left. rewrite IH; auto. intros; apply Y; now right. }
  assert (Forall wf_mem ms) as WM by (apply wf_obj in WD; tauto).
  set (txt := w1 ++ 123%N :: render_mems true ms ++ tail).
  exists D. split; auto. intros s0 Hs0. exists (S (f1 + f2)). intros fuel Hfu. destruct fuel as [|fuel]; [lia|].
  destruct (match_cut o H (d_tree D) w1 ms w0 tail W1 WM Htl fuel D (newMatcher D) (tFresh (d_slots D) (d_tree D)) x ta
    (t2, existsb (sat o doc) (g :: gs)) EH eq_refl (rel_fresh _ D) Ex Nx) as (s & Es & RL).
  { apply TO. lia. }
  { apply TM. lia. }
  cbn [fst snd] in *. rewrite EX in Es. fold txt in Es, RL.
  assert (forall i e, nth_error es i = Some e -> e <> XFalse -> expressionMatched D s i = Ok (truth o doc doc e)) as Ei'.
  { intros i e Hi Hn. rewrite <- ST by (eapply nth_error_In; eauto). apply EM; auto; [apply RL|].
    destruct (HX e) as [E|E]; auto; [eapply nth_error_In; eauto|contradiction]. }
  destruct Hs0 as [-> | (h & Hh & ->)]; [eauto|].
  pose proof (C22_reset_is_fresh o D h (S fuel) txt Hh) as X. rewrite Es in X.
  destruct (match_ (S fuel) o D txt (resetMatcher h)) as [[sr r1]| | |]; try contradiction.
  destruct X as (-> & _ & _ & _ & _ & X & _). exists sr. split; auto. intros i e Hi Hn. rewrite X. auto.
Qed.

(** In particular when the text ends there. *)
Theorem C66_truncated : forall o es w1 ms w0, supported o es -> ws w1 -> wf_cst (CObj ms w0) -> benign es (CObj ms w0) -> settled o (CObj ms w0) es ->
  answers o es (cut_text w1 ms) (existsb (truth o (CObj ms w0) (CObj ms w0)) es) (truth o (CObj ms w0) (CObj ms w0)).
Proof.
  intros o es w1 ms w0 HS W1 WD HB HE. rewrite <- (app_nil_r (cut_text w1 ms)). apply C66_settled; auto. exact I.
Qed.

(** And when it is a whole document: further members, whatever they are (the same
    names again, values on which the filters are not supported), do not matter. *)
Lemma cut_whole : forall w1 ms1 ms2 w w2, ms1 <> [] ->
  doc_text w1 (CObj (ms1 ++ ms2) w) w2 = cut_text w1 ms1 ++ (render_mems false ms2 ++ w ++ 125%N :: w2).
Proof.
  intros w1 ms1 ms2 w w2 Hn.
  assert (forall f, render_mems f (ms1 ++ ms2) = render_mems f ms1 ++ render_mems false ms2) as X.
  { destruct ms1 as [|m r]; [contradiction|]. clear Hn. intro f. revert f m. induction r as [|m' r IH]; intros f m.
    - change ([m] ++ ms2) with (m :: ms2). rewrite (render_mems_cons f m ms2), (render_mems_cons f m []). cbn [render_mems]. now rewrite !app_nil_r, <- !app_assoc.
    - change ((m :: m' :: r) ++ ms2) with (m :: (m' :: r) ++ ms2). rewrite (render_mems_cons f m ((m' :: r) ++ ms2)), (render_mems_cons f m (m' :: r)), IH.
      now rewrite <- !app_assoc. }
  unfold doc_text, cut_text. rewrite render_obj.
  rewrite X. rewrite <- !app_assoc. cbn [app]. rewrite <- !app_assoc. reflexivity.
Qed.
Theorem C66_whole : forall o es w1 ms1 ms2 w w2, supported o es -> ws w1 -> ms1 <> [] -> wf_cst (CObj (ms1 ++ ms2) w) ->
  benign es (CObj ms1 w) -> settled o (CObj ms1 w) es ->
  answers o es (doc_text w1 (CObj (ms1 ++ ms2) w) w2) (existsb (truth o (CObj ms1 w) (CObj ms1 w)) es) (truth o (CObj ms1 w) (CObj ms1 w)).
Proof.
  intros o es w1 ms1 ms2 w w2 HS W1 Hn WD HB HE. apply wf_obj in WD as [Ww WM]. apply Forall_app in WM as [WM1 WM2].
  rewrite cut_whole by auto. apply C66_settled; auto.
  - apply wf_obj. auto.
  - destruct ms2 as [|m r].
    + change (num_stop (w ++ 125%N :: w2)). apply num_stop_ws; auto. apply num_stop_sep. cbn; auto.
    + rewrite render_mems_cons. cbn [comma_text]. inversion WM2 as [|? ? (Hwc & _) _]; subst. rewrite <- !app_assoc. apply num_stop_ws; auto.
      apply num_stop_sep. cbn; auto.
Qed.

(** So a settled filter has the same truth in every document that begins so, as far
    as the filters are supported there. *)
Theorem C66_settled_truth : forall o es ms1 ms2 w, supported o es -> ms1 <> [] -> wf_cst (CObj (ms1 ++ ms2) w) ->
  benign es (CObj ms1 w) -> settled o (CObj ms1 w) es -> benign es (CObj (ms1 ++ ms2) w) ->
  forall e, In e es -> truth o (CObj (ms1 ++ ms2) w) (CObj (ms1 ++ ms2) w) e = truth o (CObj ms1 w) (CObj ms1 w) e.
Proof.
  intros o es ms1 ms2 w HS Hn WD HB HE HB2 e He.
  destruct (C66_whole o es [] ms1 ms2 w [] HS (Forall_nil _) Hn WD HB HE) as (D & ED & H1).
  destruct (match_truth o es [] (CObj (ms1 ++ ms2) w) [] HS (Forall_nil _) WD (Forall_nil _) HB2) as (D' & ED' & H2).
  rewrite ED in ED'. injection ED' as <-.
  destruct (H1 _ (or_introl eq_refl)) as (f1 & K1). destruct (H2 _ (or_introl eq_refl)) as (f2 & K2).
  destruct (K1 (f1 + f2)) as (s1' & E1 & M1); [lia|]. destruct (K2 (f1 + f2)) as (s2' & E2 & M2); [lia|].
  rewrite E1 in E2. injection E2 as <- _. apply In_nth_error in He as (i & Hi).
  assert (e = XFalse \/ e <> XFalse) as [-> | Hf] by (destruct e; auto; right; discriminate); [reflexivity|].
  specialize (M1 i e Hi Hf). specialize (M2 i e Hi Hf). congruence.
Qed.

(** ** Examples *)

(** Two filters, both settled by the first two members. *)
Definition earF : list expr :=
  [XOr [XCmp CEq (fld 0 ["a"]%string) (ci 1); XCmp CEq (fld 0 ["c"]%string) (ci 2)];
   XAnd [XLoop LAny 1 (fld 0 ["b"]%string) (XCmp CGt (fld 1 []) (ci 5)); XExists (fld 0 ["c"]%string)]].
Definition earM : list (mem cst) := match obj [("a", lit "1"); ("b", arr [lit "3"; lit "4"])]%string with CObj ms _ => ms | _ => [] end.
Example C66_example : forall o, supported o earF /\ wf_cst (CObj earM []) /\ benign earF (CObj earM []) /\ settled o (CObj earM []) earF
  /\ map (truth o (CObj earM []) (CObj earM [])) earF = [true; false].
Proof.
  intro o. split; [apply supportedb_ok; vm_compute; reflexivity|]. split; [apply wfb_ok; vm_compute; reflexivity|].
  split; [apply benignb_ok; vm_compute; reflexivity|]. split; [|vm_compute; reflexivity].
  constructor; [right; vm_compute; discriminate|]. constructor; [right; vm_compute; discriminate|constructor].
Qed.
(** The rest of the text is not looked at. *)
Example C66_garbage : forall o, answers o earF (s2b "{""a"":1,""b"":[3,4] this is no JSON") true (truth o (CObj earM []) (CObj earM [])).
Proof.
  intro o. destruct (C66_example o) as (X1 & X2 & X3 & X4 & X5).
  pose proof (C66_settled o earF [] earM [] (s2b " this is no JSON") X1 (Forall_nil _) X2 X3 X4) as X.
  vm_compute existsb in X. apply X. vm_compute. intuition discriminate.
Qed.
(** A filter that is not settled makes the same text an error. *)
Example C66_unsettled : forall o, ~ settled o (CObj earM []) [XExists (fld 0 ["c"]%string)]
  /\ run o [XExists (fld 0 ["c"]%string)] "{""a"":1,""b"":[3,4] this is no JSON" = Ok None.
Proof.
  intro o. split; [|vm_compute; reflexivity]. intro X. inversion X as [|? ? [Y|Y] _]; subst; [discriminate|]. apply Y. reflexivity.
Qed.
(** The condition on the tail: [1] followed by [2] is another number. *)
Example C66_inside : forall o, run o [XCmp CEq (fld 0 ["a"]%string) (ci 1)] "{""a"":12" = Ok (Some false)
  /\ run o [XCmp CEq (fld 0 ["a"]%string) (ci 1)] "{""a"":1" = Ok (Some true).
Proof. intro o. split; vm_compute; reflexivity. Qed.
(** A later member of the same name is not looked at. *)
Example C66_again : forall o, run o [XCmp CEq (fld 0 ["a"]%string) (ci 1)] "{""a"":1,""a"":2}" = Ok (Some true).
Proof. intro o. vm_compute; reflexivity. Qed.

Print Assumptions C66_settled.
Print Assumptions C66_truncated.
Print Assumptions C66_whole.
Print Assumptions C66_settled_truth.
