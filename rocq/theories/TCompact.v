(** Compacting expressions: final statements (C38). *)
From Coq Require Import String.
From Verif Require Import Base MTokenizer SJson MLit MFastVal SFormula SEvents MExpr MTransform MMatcher MTree SFilter SDoc SSat SSem
  PWf PCheck TReset TMatch SExamples MCompact SCompact.
From Coq Require Import List NArith ZArith Arith Lia Bool.
Import ListNotations.
Open Scope nat_scope.

Lemma compact_or : forall l, compact (XOr l) = compactOr compact l [].
Proof. reflexivity. Qed.
Lemma compact_and : forall l, compact (XAnd l) = compactAnd compact l [].
Proof. reflexivity. Qed.

Section Meaning.
  Variable o : oracles.
  Variables doc cur : cst.
  Notation T := (truth o doc cur).

  Lemma orLoop_truth : forall l new, Forall (fun x => T (compact x) = T x) l ->
    T (compactOr compact l new) = existsb T new || existsb T l.
  Proof.
    induction l as [|x r IH]; intros new HF; cbn [compactOr existsb].
    - destruct new; cbn [truth existsb]; [reflexivity|]. now rewrite orb_false_r.
    - inversion HF as [|? ? Hx Hr]; subst. rewrite <- Hx. destruct (compact x); cbn [truth]; try rewrite IH by auto;
        try rewrite existsb_app; cbn [existsb]; rewrite ?orb_true_r, ?orb_false_r, ?orb_assoc, ?orb_false_r; try reflexivity.
  Qed.
  Lemma andLoop_truth : forall l new, Forall (fun x => T (compact x) = T x) l ->
    T (compactAnd compact l new) = forallb T new && forallb T l.
  Proof.
    induction l as [|x r IH]; intros new HF; cbn [compactAnd forallb].
    - destruct new; cbn [truth forallb]; [reflexivity|]. now rewrite andb_true_r.
    - inversion HF as [|? ? Hx Hr]; subst. rewrite <- Hx. destruct (compact x); cbn [truth]; try rewrite IH by auto;
        try rewrite forallb_app; cbn [forallb]; rewrite ?andb_true_r, ?andb_false_r, ?andb_assoc, ?andb_true_r, ?andb_false_r; try reflexivity.
  Qed.
  Lemma go_forall : forall l, (fix go l := match l with [] => True | x :: r => constLoopsRun doc cur x /\ go r end) l ->
    Forall (constLoopsRun doc cur) l.
  Proof. induction l; intros; constructor; intuition. Qed.

  (** A loop is the constant in its body exactly under [loopIsBody]. *)
  Lemma quant_const : forall {A} m b (l : list A), quant m (map (fun _ => b) l) =
    match m with LAny => match l with [] => false | _ => b end | LEvery => match l with [] => true | _ => b end
            | LAnyEvery => match l with [] => false | _ => b end end.
  Proof.
    intros A m b l. assert (forall l : list A, existsb (fun b => b) (map (fun _ => b) l) = match l with [] => false | _ => b end) as X.
    { induction l0 as [|y r IH]; cbn [map existsb]; auto. rewrite IH. destruct r, b; auto. }
    assert (forall l : list A, forallb (fun b => b) (map (fun _ => b) l) = match l with [] => true | _ => b end) as Y.
    { induction l0 as [|y r IH]; cbn [map forallb]; auto. rewrite IH. destruct r, b; auto. }
    destruct m; cbn [quant]; rewrite ?X, ?Y; auto. destruct l, b; auto.
  Qed.
  Lemma loop_exact : forall m v i s, m <> LAnyEvery -> (s = XTrue \/ s = XFalse) ->
    (T s = T (XLoop m v i s) <-> loopIsBody doc cur m i s).
  Proof.
    intros m v i s Hm Hs. destruct i as [| |g|sa|sa|sa|a|l|l|r p|n l|m' v' i' s'|a|a|k l r].
    10: { cbn [truth loopIsBody]. destruct (fieldAt doc cur r p) as [[tk tx|es w|ms w]|]; destruct Hs; subst; cbn [truth]; rewrite ?quant_const; destruct m; try contradiction;
      try (destruct es); cbn [overSome overArray overNone]; split; intros; try congruence; auto; try tauto; intros []; auto; try contradiction. }
    all: destruct Hs; subst; cbn [truth loopIsBody]; destruct m; try contradiction;
      (split; [intro E; first [discriminate E | left; discriminate] | intros [E|E]; first [congruence | reflexivity]]).
  Qed.
End Meaning.

(** The compacted expression has the same truth value as the original, wherever the
    loops over constants that compaction decides do run. *)
Theorem C38_compact_truth : forall o doc cur e, constLoopsRun doc cur e -> truth o doc cur (compact e) = truth o doc cur e.
Proof.
  intros o doc cur e. induction e as [| |g|sa|sa|sa|a IH|l IH|l IH|r p|n l IH|m v i s IHi IHs|a IH|a IH|k l r IHl IHr] using expr_ind';
    intros HC; try reflexivity.
  - rewrite compact_and. assert (Forall (constLoopsRun doc cur) l) as HF by now apply go_forall.
    rewrite andLoop_truth; [reflexivity|]. rewrite Forall_forall in IH, HF. apply Forall_forall. auto.
  - rewrite compact_or. assert (Forall (constLoopsRun doc cur) l) as HF by now apply go_forall.
    rewrite orLoop_truth; [reflexivity|]. rewrite Forall_forall in IH, HF. apply Forall_forall. auto.
  - assert (m <> LAnyEvery -> compact (XLoop m v i s) = compactLoop (XLoop m v i s) s) as E by (destruct m; intros; congruence || reflexivity).
    destruct m; try reflexivity; rewrite E by discriminate; unfold compactLoop; destruct s; try reflexivity;
      apply loop_exact; auto; discriminate.
Qed.

(** For a single loop the condition is exact. *)
Theorem C38_compact_loop_exact : forall o doc cur m v i s, m <> LAnyEvery -> (s = XTrue \/ s = XFalse) ->
  (truth o doc cur (compact (XLoop m v i s)) = truth o doc cur (XLoop m v i s) <-> loopIsBody doc cur m i s).
Proof.
  intros o doc cur m v i s Hm Hs. rewrite <- (loop_exact o doc cur m v i s Hm Hs).
  destruct m; try contradiction; destruct Hs; subst; reflexivity.
Qed.

(** Compacting twice changes nothing more. *)
Lemma fixed_or : forall l new, Forall (fun x => compact (compact x) = compact x) l -> Forall (fun x => compact x = x /\ x <> XTrue /\ x <> XFalse) new ->
  compact (compactOr compact l new) = compactOr compact l new.
Proof.
  assert (forall new acc, Forall (fun x => compact x = x /\ x <> XTrue /\ x <> XFalse) new -> new ++ acc <> [] -> compactOr compact new acc = XOr (acc ++ new)) as F.
  { induction new as [|x r IH]; intros acc HF Hn; cbn [compactOr].
    - cbn in Hn. rewrite app_nil_r. destruct acc; congruence.
    - inversion HF as [|? ? (E & N1 & N2) Hr]; subst. rewrite E.
      assert (compactOr compact r (acc ++ [x]) = XOr (acc ++ x :: r)) as X.
      { rewrite IH; auto; [now rewrite <- app_assoc|]. destruct r, acc; discriminate. }
      destruct x; try contradiction; exact X. }
  induction l as [|x r IH]; intros new HF HN; cbn [compactOr].
  - destruct new as [|y n]; [reflexivity|]. rewrite compact_or. rewrite F; auto. rewrite app_nil_r. discriminate.
  - inversion HF as [|? ? Hx Hr]; subst.
    destruct (compact x) eqn:E; try reflexivity; apply IH; auto; apply Forall_app; split; auto; constructor; auto; split; auto; split; discriminate.
Qed.
Lemma fixed_and : forall l new, Forall (fun x => compact (compact x) = compact x) l -> Forall (fun x => compact x = x /\ x <> XTrue /\ x <> XFalse) new ->
  compact (compactAnd compact l new) = compactAnd compact l new.
Proof.
  assert (forall new acc, Forall (fun x => compact x = x /\ x <> XTrue /\ x <> XFalse) new -> new ++ acc <> [] -> compactAnd compact new acc = XAnd (acc ++ new)) as F.
  { induction new as [|x r IH]; intros acc HF Hn; cbn [compactAnd].
    - cbn in Hn. rewrite app_nil_r. destruct acc; congruence.
    - inversion HF as [|? ? (E & N1 & N2) Hr]; subst. rewrite E.
      assert (compactAnd compact r (acc ++ [x]) = XAnd (acc ++ x :: r)) as X.
      { rewrite IH; auto; [now rewrite <- app_assoc|]. destruct r, acc; discriminate. }
      destruct x; try contradiction; exact X. }
  induction l as [|x r IH]; intros new HF HN; cbn [compactAnd].
  - destruct new as [|y n]; [reflexivity|]. rewrite compact_and. rewrite F; auto. rewrite app_nil_r. discriminate.
  - inversion HF as [|? ? Hx Hr]; subst.
    destruct (compact x) eqn:E; try reflexivity; apply IH; auto; apply Forall_app; split; auto; constructor; auto; split; auto; split; discriminate.
Qed.
Theorem C38_compact_idempotent : forall e, compact (compact e) = compact e.
Proof.
  intros e. induction e as [| |g|sa|sa|sa|a IH|l IH|l IH|r p|n l IH|m v i s IHi IHs|a IH|a IH|k l r IHl IHr] using expr_ind'; try reflexivity.
  - rewrite compact_and. now apply fixed_and.
  - rewrite compact_or. now apply fixed_or.
  - assert (m <> LAnyEvery -> compact (XLoop m v i s) = compactLoop (XLoop m v i s) s) as E by (destruct m; intros; congruence || reflexivity).
    destruct m; try reflexivity; rewrite E by discriminate; unfold compactLoop; destruct s; try reflexivity; apply E; discriminate.
Qed.

(** What comes out is a constant, or contains none next to and/or. *)
Lemma forallb_Forall' : forall {A} (f : A -> bool) l, (forall x, In x l -> f x = true) -> forallb f l = true.
Proof. intros. apply forallb_forall. auto. Qed.
Lemma clean_or : forall l new, Forall (fun x => compact x = XTrue \/ compact x = XFalse \/ constFree (compact x) = true) l -> forallb constFree new = true ->
  compactOr compact l new = XTrue \/ compactOr compact l new = XFalse \/ constFree (compactOr compact l new) = true.
Proof.
  induction l as [|x r IH]; intros new HF HN; cbn [compactOr].
  - destruct new; auto.
  - inversion HF as [|? ? Hx Hr]; subst. destruct (compact x) eqn:E; auto; apply IH; auto; rewrite forallb_app, HN; cbn [forallb];
      destruct Hx as [X|[X|X]]; try discriminate X; rewrite X; reflexivity.
Qed.
Lemma clean_and : forall l new, Forall (fun x => compact x = XTrue \/ compact x = XFalse \/ constFree (compact x) = true) l -> forallb constFree new = true ->
  compactAnd compact l new = XTrue \/ compactAnd compact l new = XFalse \/ constFree (compactAnd compact l new) = true.
Proof.
  induction l as [|x r IH]; intros new HF HN; cbn [compactAnd].
  - destruct new; auto.
  - inversion HF as [|? ? Hx Hr]; subst. destruct (compact x) eqn:E; auto; apply IH; auto; rewrite forallb_app, HN; cbn [forallb];
      destruct Hx as [X|[X|X]]; try discriminate X; rewrite X; reflexivity.
Qed.
Theorem C38_compact_clean : forall e, compact e = XTrue \/ compact e = XFalse \/ constFree (compact e) = true.
Proof.
  intros e. induction e as [| |g|sa|sa|sa|a IH|l IH|l IH|r p|n l IH|m v i s IHi IHs|a IH|a IH|k l r IHl IHr] using expr_ind'; auto.
  - rewrite compact_and. now apply clean_and.
  - rewrite compact_or. now apply clean_or.
  - assert (m <> LAnyEvery -> compact (XLoop m v i s) = compactLoop (XLoop m v i s) s) as E by (destruct m; intros; congruence || reflexivity).
    destruct m; try (right; right; reflexivity); rewrite E by discriminate; destruct s; auto.
Qed.
(** An expression already of that form is left alone. *)
Theorem C38_compact_keeps : forall e, constFree e = true -> compact e = e.
Proof.
  assert (forall l new, Forall (fun x => constFree x = true -> compact x = x) l -> forallb constFree l = true -> l ++ new <> [] -> compactOr compact l new = XOr (new ++ l)) as FO.
  { induction l as [|x r IH]; intros new HF HC Hn; cbn [compactOr].
    - cbn [app] in Hn. rewrite app_nil_r. destruct new; [congruence|reflexivity].
    - cbn [forallb] in HC. apply andb_true_iff in HC as [Hx HC]. inversion HF as [|? ? E Hr]; subst. rewrite (E Hx).
      assert (compactOr compact r (new ++ [x]) = XOr (new ++ x :: r)) as X.
      { rewrite IH; auto; [now rewrite <- app_assoc|]. destruct r, new; discriminate. }
      destruct x; try exact X; discriminate Hx. }
  assert (forall l new, Forall (fun x => constFree x = true -> compact x = x) l -> forallb constFree l = true -> l ++ new <> [] -> compactAnd compact l new = XAnd (new ++ l)) as FA.
  { induction l as [|x r IH]; intros new HF HC Hn; cbn [compactAnd].
    - cbn [app] in Hn. rewrite app_nil_r. destruct new; [congruence|reflexivity].
    - cbn [forallb] in HC. apply andb_true_iff in HC as [Hx HC]. inversion HF as [|? ? E Hr]; subst. rewrite (E Hx).
      assert (compactAnd compact r (new ++ [x]) = XAnd (new ++ x :: r)) as X.
      { rewrite IH; auto; [now rewrite <- app_assoc|]. destruct r, new; discriminate. }
      destruct x; try exact X; discriminate Hx. }
  intros e. induction e as [| |g|sa|sa|sa|a IH|l IH|l IH|r p|n l IH|m v i s IHi IHs|a IH|a IH|k l r IHl IHr] using expr_ind'; intros HC; try reflexivity.
  - rewrite compact_and. destruct l as [|x r]; [discriminate HC|]. rewrite FA; auto. rewrite app_nil_r. discriminate.
  - rewrite compact_or. destruct l as [|x r]; [discriminate HC|]. rewrite FO; auto. rewrite app_nil_r. discriminate.
  - destruct m; try reflexivity; destruct s; try reflexivity; discriminate HC.
Qed.

(** Compiled and matched, the compacted list gives the truth of the original list,
    including lists with nested TRUE, which the matcher alone gets wrong. *)
Theorem C38_compact_match : forall o es w1 doc w2,
  supported o (map compact es) -> benign (map compact es) doc ->
  ws w1 -> wf_cst doc -> ws w2 -> Forall (constLoopsRun doc doc) es ->
  answers o (map compact es) (doc_text w1 doc w2) (existsb (truth o doc doc) es) (truth o doc doc).
Proof.
  intros o es w1 doc w2 S2 B2 W1 WD W2 HC.
  replace (existsb (truth o doc doc) es) with (existsb (truth o doc doc) (map compact es)); [now apply match_truth|].
  clear - HC. induction HC as [|e es He HC IH]; auto. cbn [map existsb]. now rewrite IH, C38_compact_truth.
Qed.

(** ** The condition matters *)
(** [any v in a satisfies TRUE] on a document with the empty array [a]: false; compacted, TRUE. *)
Theorem C38_compact_any_refuted : exists e doc, forall o,
  truth o doc doc e = false /\ compact e = XTrue.
Proof.
  exists (XLoop LAny 1 (fld 0 ["a"%string]) XTrue). exists (obj [("a"%string, arr [])]). intro o. split; reflexivity.
Qed.
(** [every v in a satisfies FALSE] holds of an empty array, its compaction FALSE does not. *)
Theorem C38_compact_every_refuted : exists e doc, forall o,
  truth o doc doc e = true /\ compact e = XFalse.
Proof.
  exists (XLoop LEvery 1 (fld 0 ["a"%string]) XFalse). exists (obj [("a"%string, arr [])]). intro o. split; reflexivity.
Qed.

(** ** Cases *)
(** (FALSE or a = 1) and TRUE and (any v in b: TRUE) becomes ((a = 1)). *)
Definition exE : expr :=
  XAnd [XOr [XFalse; XCmp CEq (fld 0 ["a"%string]) (ci 1)]; XTrue; XLoop LAny 1 (fld 0 ["b"%string]) XTrue].
Example C38_compact_case : compact exE = XAnd [XOr [XCmp CEq (fld 0 ["a"%string]) (ci 1)]].
Proof. reflexivity. Qed.
Example C38_runs_case : constLoopsRun (obj [("b"%string, arr [lit "7"])]) (obj [("b"%string, arr [lit "7"])]) exE.
Proof. cbn. tauto. Qed.
Example C38_match_case : forall o, let d := obj [("a"%string, lit "1"); ("b"%string, arr [lit "7"])] in
  supported o (map compact [exE]) /\ benign (map compact [exE]) d /\ Forall (constLoopsRun d d) [exE] /\ wf_cst d /\ truth o d d exE = true.
Proof.
  intros o d. split; [apply supportedb_ok; vm_compute; reflexivity|]. split; [apply benignb_ok; vm_compute; reflexivity|].
  split; [repeat constructor|]. split; [apply wfb_ok; vm_compute; reflexivity|vm_compute; reflexivity].
Qed.
Print Assumptions C38_compact_truth.
Print Assumptions C38_compact_match.
