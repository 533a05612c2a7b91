(** Matching a JSON document never crashes or fails: final statement (C26). *)
From Coq Require Import String.
From Verif Require Import Base PTokenizer MTokenizer SJson MLit MFastVal MMath SEvents SFormula SMerge MBinTree MSession MExpr MTransform SProper SSat SSafe
  MMatcher MTree PBinTree PMerge PTree PCompile PTrace PTerm PTermHeap PSafe PSafeHeap PReset TReset TTerm PWf SExamples.
From Coq Require Import List NArith ZArith Arith Lia Bool.
Import ListNotations.
Open Scope nat_scope.

(** ** C26 *)

Lemma allSafe_Forall : forall es, Forall functionsSafe es -> allSafe es.
Proof. intros es H. induction H; cbn; auto. Qed.

Lemma fresh_inv : forall T ns, 0 < length T -> Inv T ns 0 (tFresh ns T).
Proof.
  intros T ns HT. assert (forall j, st (newState T) j = SUnknown) as U.
  { intro j. unfold st, newState. destruct (nth_in_or_default j (repeat SUnknown (length T)) SUnknown) as [Hn|Hn]; auto. now apply repeat_spec in Hn. }
  constructor; cbn [tFresh ts_stall ts_data ts_slots]; auto.
  - split; [unfold newState; apply repeat_length|]. intros i Hs. exfalso. apply Hs. apply U.
  - intros j _ _. apply U.
  - apply repeat_length.
  - apply Forall_forall. intros w Hw. apply repeat_spec in Hw. now subst.
Qed.

(** A matcher ready for use: new, or reset after anything it has been through. *)
Definition usable (o : oracles) (D : matchdef) (s : mst) : Prop :=
  s = newMatcher D \/ exists h, history o D h /\ s = resetMatcher h.

(** For every filter list that compiles, is not made of constants only, has its
    conditions where conditions belong and uses no division or modulo: a usable
    matcher gives, on every well-formed JSON document (of any kind, with repeated
    names, empty containers, any layout and any nesting), an answer: no error, no
    crash, no endless run. *)
Theorem wellformed_answers : forall o es D w1 v w2 s,
  transform o es = Ok D -> forallb proper es = true -> Forall functionsSafe es -> (exists e, In e es /\ e <> XTrue /\ e <> XFalse) ->
  ws w1 -> wf_cst v -> num_stop w2 -> usable o D s ->
  exists F s' b, forall fuel, F <= fuel -> match_ fuel o D (doc_text w1 v w2) s = Ok (s', Some b).
Proof.
  intros o es D w1 v w2 s HT HP HF (e0 & He0 & Hn1 & Hn2) W1 WV W2 HU.
  assert (genExprs es <> []) as Hg.
  { intro E. assert (In e0 (genExprs es)) as X by (apply filter_In; split; auto; destruct e0; cbn; auto; contradiction). rewrite E in X. destruct X. }
  destruct (C27_match_terminates o es D (doc_text w1 v w2) s HT HP) as (F & r & Hr & HM).
  assert (exists b s', match_ F o D (doc_text w1 v w2) (newMatcher D) = OutOfFuel \/ match_ F o D (doc_text w1 v w2) (newMatcher D) = Ok (s', Some b)) as (b & sn & Hfresh).
  { destruct (transform_safe o es D (allSafe_Forall _ HF) Hg HT) as (h & L & Eh & HS & H0 & Hh).
    assert (treeCons (d_tree D)) as HC.
    { destruct (transform_spec o es D HT) as [[X _]|(g & gs & t & ids & _ & _ & _ & _ & ->)]; [contradiction|]. apply lay_cons. }
    pose proof (match_safe o h (d_tree D) v (d_slots D) (fun n => nth n L 0) HC (heapS_good o _ _ _ _ HS) WV F _ (fresh_inv _ _ (proj1 HC)) (nth_error_nth _ _ _ H0) Hh) as X.
    pose proof (match_sim o h (d_tree D) w1 v w2 W1 WV W2 _ eq_refl F D (newMatcher D) _ Eh eq_refl (rel_fresh _ D)) as SIM.
    destruct (tMatch o h (d_tree D) v F (tFresh (d_slots D) (d_tree D))) as [[t' b]| | |]; cbn [sure] in X; try contradiction.
    - destruct SIM as ([sf rf] & EM & _ & Er). cbn [snd] in Er. subst rf. exists b, sf. right. exact EM.
    - exists true, (newMatcher D). left. exact SIM. }
  assert (exists s', match_ F o D (doc_text w1 v w2) s = Ok (s', Some b)) as (s' & E).
  { pose proof (HM F (le_n _)) as EF. destruct HU as [->|(hs & Hh & ->)].
    - destruct Hfresh as [Hfr|Hfr]; [congruence|]. eauto.
    - pose proof (C22_reset_is_fresh o D hs F (doc_text w1 v w2) Hh) as X. rewrite EF in X |- *.
      destruct Hfresh as [Hfr|Hfr]; rewrite Hfr in X; destruct r as [[sr rr]| | |]; try contradiction; try congruence.
      destruct X as [-> _]. eauto. }
  exists F, s', b. intros fuel Hf. rewrite (HM fuel Hf), <- (HM F (le_n _)). exact E.
Qed.
Theorem C26_wellformed_answers : forall o es D w1 v w2 s,
  transform o es = Ok D -> forallb proper es = true -> Forall functionsSafe es -> (exists e, In e es /\ e <> XTrue /\ e <> XFalse) ->
  ws w1 -> wf_cst v -> ws w2 -> usable o D s ->
  exists F s' b, forall fuel, F <= fuel -> match_ fuel o D (doc_text w1 v w2) s = Ok (s', Some b).
Proof. intros. eapply wellformed_answers; eauto using num_stop_ws_tail. Qed.

(** Nested loops, a function and a comparison of two fields, on a document with
    repeated names, an empty container and arrays of arrays, and on one that is
    just a number; by a new matcher and by one reset after a failed match. *)
Definition ex_safe : list expr :=
  [XAnd [XLoop LAny 1 (fld 0 ["a"%string]) (XLoop LEvery 2 (fld 1 ["b"%string]) (XCmp CGt (fld 2 []) (fld 0 ["c"%string])));
         XNot (XCmp CLt (XFunc (s2b "mathAbs") [fld 0 ["c"%string]]) (fld 0 ["d"%string]))]].
Definition ex_weird : cst := obj [("c", lit "1"); ("a", arr [arr [arr []]; obj [("b", obj []); ("b", arr [lit "2"; lit "null"])]]); ("c", arr [])]%string.
Example C26_answers_case : forall o,
  (exists D, transform o ex_safe = Ok D) /\ forallb proper ex_safe = true /\ Forall functionsSafe ex_safe
  /\ (exists e, In e ex_safe /\ e <> XTrue /\ e <> XFalse) /\ wf_cst ex_weird /\ wf_cst (lit "3").
Proof.
  intro o. split.
  { let x := eval vm_compute in (transform o ex_safe) in match x with Ok ?D => exists D end. vm_compute. reflexivity. }
  split; [reflexivity|]. split; [|split; [|split; apply wfb_ok; vm_compute; reflexivity]].
  - constructor; [|constructor]. cbn [functionsSafe ex_safe]. repeat split; auto. left. split; [|cbn; lia]. vm_compute. tauto.
  - eexists. split; [now left|]. split; discriminate.
Qed.

Print Assumptions C26_wellformed_answers.
