(** Expression statistics: final statements (C41). *)
From Coq Require Import String.
From Verif Require Import Base SEvents MExpr MStats SStats SExamples.
From Coq Require Import List NArith ZArith Arith Lia Bool.
Import ListNotations.
Open Scope nat_scope.

(** [st'] is [st] with the parts [P] counted in. *)
Definition plus (P : list (nat * expr)) (st st' : stats) : Prop :=
  numFields st' = numFields st + length (filter isField P)
  /\ numValues st' = numValues st + length (filter isValue P)
  /\ numAnds st' = numAnds st + length (filter isAnd P)
  /\ numOrs st' = numOrs st + length (filter isOr P)
  /\ numLoops st' = numLoops st + length (filter isLoop P)
  /\ numNestedLoops st' = numNestedLoops st + length (filter isNestedOnce P)
  /\ maxLoopDepth st' = Nat.max (maxLoopDepth st) (list_max (map fst P)).

Lemma plus_app : forall P Q st st' st'', plus P st st' -> plus Q st' st'' -> plus (P ++ Q) st st''.
Proof.
  intros P Q st st' st'' HP HQ. unfold plus in *. rewrite !filter_app, !app_length, map_app, list_max_app. lia.
Qed.
Lemma plus_nil : forall st, plus [] st st.
Proof. intros. unfold plus. cbn. lia. Qed.
Lemma see_depth : forall st d, numFields (seeDepth st d) = numFields st /\ numValues (seeDepth st d) = numValues st
  /\ numAnds (seeDepth st d) = numAnds st /\ numOrs (seeDepth st d) = numOrs st /\ numLoops (seeDepth st d) = numLoops st
  /\ numNestedLoops (seeDepth st d) = numNestedLoops st /\ maxLoopDepth (seeDepth st d) = Nat.max (maxLoopDepth st) d.
Proof.
  intros st d. unfold seeDepth. destruct (Nat.ltb_spec (maxLoopDepth st) d); cbn; repeat split; lia.
Qed.

Definition scanAll (d : nat) := fix go (st : stats) (l : list expr) : outcome stats :=
  match l with [] => Ok st | x :: r => do st' <- scanOne st x d; go st' r end.

Lemma here : forall d e st st' P, parts d e = (d, e) :: P ->
  plus [(d, e)] st st' -> forall st'', plus P st' st'' -> plus (parts d e) st st''.
Proof. intros d e st st' P -> H1 st'' H2. change ((d, e) :: P) with ([(d, e)] ++ P). eapply plus_app; eauto. Qed.

Ltac one := match goal with |- plus _ ?st _ => idtac end; unfold plus; cbn [filter map fst snd isField isValue isAnd isOr isLoop isNested isNestedOnce andb length list_max fold_right
  addField addValue addAnd addOr addLoop numFields numValues numAnds numOrs numLoops numNestedLoops maxLoopDepth].

Lemma scan_counts : forall e d st, forallb counted (parts d e) = true -> exists st', scanOne st e d = Ok st' /\ plus (parts d e) st st'.
Proof.
  intros e. induction e as [| |g|sa|sa|sa|a IH|l IH|l IH|r p|n l IH|m v i s IHi IHs|a IH|a IH|k l r IHl IHr] using expr_ind'; intros d st HC;
    try discriminate HC.
  all: pose proof (see_depth st d) as SD.
  - eexists. split; [reflexivity|]. cbn [parts]. one. lia.
  - cbn [scanOne]. fold (scanAll d).
    assert (forall st, exists st', scanAll d st l = Ok st' /\ plus (flat_map (parts d) l) st st') as X.
    { cbn [parts forallb] in HC. apply andb_true_iff in HC as [_ HC]. clear SD. induction IH as [|x r Hx Hr IH']; intros st1.
      - exists st1. split; [reflexivity|apply plus_nil].
      - cbn [flat_map] in *. rewrite forallb_app in HC. apply andb_true_iff in HC as [H1 H2]. cbn [scanAll].
        destruct (Hx d st1 H1) as (s' & -> & P'). cbn [obind]. destruct (IH' H2 s') as (s'' & E & P''). exists s''. split; [exact E|eapply plus_app; eauto]. }
    destruct (X (addAnd (seeDepth st d))) as (s' & E & P'). exists s'. split; [exact E|]. eapply here; [reflexivity| |exact P']. one. lia.
  - cbn [scanOne]. fold (scanAll d).
    assert (forall st, exists st', scanAll d st l = Ok st' /\ plus (flat_map (parts d) l) st st') as X.
    { cbn [parts forallb] in HC. apply andb_true_iff in HC as [_ HC]. clear SD. induction IH as [|x r Hx Hr IH']; intros st1.
      - exists st1. split; [reflexivity|apply plus_nil].
      - cbn [flat_map] in *. rewrite forallb_app in HC. apply andb_true_iff in HC as [H1 H2]. cbn [scanAll].
        destruct (Hx d st1 H1) as (s' & -> & P'). cbn [obind]. destruct (IH' H2 s') as (s'' & E & P''). exists s''. split; [exact E|eapply plus_app; eauto]. }
    destruct (X (addOr (seeDepth st d))) as (s' & E & P'). exists s'. split; [exact E|]. eapply here; [reflexivity| |exact P']. one. lia.
  - eexists. split; [reflexivity|]. cbn [parts]. one. lia.
  - cbn [scanOne]. fold (scanAll d).
    assert (forall st, exists st', scanAll d st l = Ok st' /\ plus (flat_map (parts d) l) st st') as X.
    { cbn [parts forallb] in HC. apply andb_true_iff in HC as [_ HC]. clear SD. induction IH as [|x r Hx Hr IH']; intros st1.
      - exists st1. split; [reflexivity|apply plus_nil].
      - cbn [flat_map] in *. rewrite forallb_app in HC. apply andb_true_iff in HC as [H1 H2]. cbn [scanAll].
        destruct (Hx d st1 H1) as (s' & -> & P'). cbn [obind]. destruct (IH' H2 s') as (s'' & E & P''). exists s''. split; [exact E|eapply plus_app; eauto]. }
    destruct (X (seeDepth st d)) as (s' & E & P'). exists s'. split; [exact E|]. eapply here; [reflexivity| |exact P']. one. lia.
  - cbn [parts forallb] in HC. apply andb_true_iff in HC as [_ HC]. rewrite forallb_app in HC. apply andb_true_iff in HC as [H1 H2].
    cbn [scanOne]. destruct (IHi d (addLoop (seeDepth st d) d) H1) as (s1 & -> & P1). cbn [obind]. destruct (IHs (S d) s1 H2) as (s2 & -> & P2).
    exists s2. split; [reflexivity|]. eapply here; [reflexivity| |eapply plus_app; eauto]. one. destruct (Nat.eqb d 1); cbn [length]; lia.
  - cbn [parts forallb] in HC. apply andb_true_iff in HC as [_ HC]. cbn [scanOne]. destruct (IH d (seeDepth st d) HC) as (s1 & -> & P1).
    exists s1. split; [reflexivity|]. eapply here; [reflexivity| |exact P1]. one. lia.
  - cbn [parts forallb] in HC. apply andb_true_iff in HC as [_ HC]. cbn [scanOne]. destruct (IH d (seeDepth st d) HC) as (s1 & -> & P1).
    exists s1. split; [reflexivity|]. eapply here; [reflexivity| |exact P1]. one. lia.
  - cbn [parts forallb] in HC. apply andb_true_iff in HC as [Hk HC]. rewrite forallb_app in HC. apply andb_true_iff in HC as [H1 H2].
    destruct (IHl d (seeDepth st d) H1) as (s1 & E1 & P1). destruct (IHr d s1 H2) as (s2 & E2 & P2).
    exists s2. split; [destruct k; try discriminate Hk; cbn [scanOne]; rewrite E1; cbn [obind]; exact E2|].
    eapply here; [reflexivity| |eapply plus_app; eauto]. one. lia.
Qed.

Lemma scan_panics : forall e d st, forallb counted (parts d e) = false -> scanOne st e d = Panic.
Proof.
  assert (forall d l, Forall (fun e => forall d st, forallb counted (parts d e) = false -> scanOne st e d = Panic) l ->
    forallb counted (flat_map (parts d) l) = false -> forall st, scanAll d st l = Panic) as X.
  { intros d l HF. induction HF as [|x r Hx Hr IH']; intros HC st; [discriminate HC|]. cbn [flat_map] in HC. rewrite forallb_app in HC. cbn [scanAll].
    destruct (forallb counted (parts d x)) eqn:E; [|now rewrite (Hx d st E)].
    destruct (scan_counts x d st E) as (s' & -> & _). cbn [obind]. now apply IH'. }
  intros e. induction e as [| |g|sa|sa|sa|a IH|l IH|l IH|r p|n l IH|m v i s IHi IHs|a IH|a IH|k l r IHl IHr] using expr_ind'; intros d st HC;
    try reflexivity; try discriminate HC; cbn [parts forallb] in HC.
  - cbn [scanOne]. fold (scanAll d). now apply X.
  - cbn [scanOne]. fold (scanAll d). now apply X.
  - cbn [scanOne]. fold (scanAll d). now apply X.
  - cbn [counted snd andb] in HC. rewrite forallb_app in HC. cbn [scanOne]. destruct (forallb counted (parts d i)) eqn:E.
    + destruct (scan_counts i d (addLoop (seeDepth st d) d) E) as (s' & -> & _). cbn [obind]. now apply IHs.
    + now rewrite (IHi d _ E).
  - cbn [scanOne]. now apply IH.
  - cbn [scanOne]. now apply IH.
  - rewrite forallb_app in HC. destruct (counted (d, XCmp k l r)) eqn:Ek; cbn [andb] in HC.
    2: { destruct k; try discriminate Ek. reflexivity. }
    assert ((do st' <- scanOne (seeDepth st d) l d; scanOne st' r d) = Panic) as Y.
    { destruct (forallb counted (parts d l)) eqn:E.
      + destruct (scan_counts l d (seeDepth st d) E) as (s' & -> & _). cbn [obind]. now apply IHr.
      + now rewrite (IHl d _ E). }
    destruct k; try discriminate Ek; exact Y.
Qed.

(** Scanning adds the occurrences of each kind to the counters, and the depth of the
    deepest loop body is the maximum.  It crashes exactly on expressions with a
    node of a kind it does not know. *)
Theorem C41_stats_exact : forall st e, if forallb counted (parts 0 e) then
    exists st', scan st e = Ok st'
    /\ numFields st' = numFields st + count isField e
    /\ numValues st' = numValues st + count isValue e
    /\ numAnds st' = numAnds st + count isAnd e
    /\ numOrs st' = numOrs st + count isOr e
    /\ numLoops st' = numLoops st + count isLoop e
    /\ numNestedLoops st' = numNestedLoops st + count isNestedOnce e
    /\ maxLoopDepth st' = Nat.max (maxLoopDepth st) (depth e)
  else scan st e = Panic.
Proof.
  intros st e. destruct (forallb counted (parts 0 e)) eqn:E.
  - exact (scan_counts e 0 st E).
  - now apply scan_panics.
Qed.

(** Scanning several expressions adds up, in any order. *)
Theorem C41_stats_add : forall st e1 e2 st1 st2 st12 st21,
  scan st e1 = Ok st1 -> scan st1 e2 = Ok st12 -> scan st e2 = Ok st2 -> scan st2 e1 = Ok st21 -> st12 = st21.
Proof.
  intros st e1 e2 st1 st2 st12 st21 A B C D.
  pose proof (C41_stats_exact st e1) as A'. pose proof (C41_stats_exact st1 e2) as B'.
  pose proof (C41_stats_exact st e2) as C'. pose proof (C41_stats_exact st2 e1) as D'.
  destruct (forallb counted (parts 0 e1)); [|congruence]. destruct (forallb counted (parts 0 e2)); [|congruence].
  destruct A' as (? & E & A'), B' as (? & E2 & B'), C' as (? & E3 & C'), D' as (? & E4 & D').
  rewrite E in A. rewrite E2 in B. rewrite E3 in C. rewrite E4 in D.
  injection A as <-. injection B as <-. injection C as <-. injection D as <-.
  destruct x0, x2. cbn in *. f_equal; lia.
Qed.

(** Every loop counted as nested lies inside another ... *)
Theorem C41_nested_sound : forall e, count isNestedOnce e <= count isNested e.
Proof.
  intros e. unfold count. induction (parts 0 e) as [|[d x] l IH]; cbn [filter length]; [lia|].
  unfold isNestedOnce at 1, isNested at 1. cbn [fst]. destruct (isLoop (d, x)), d as [|[|d]]; cbn [andb negb Nat.eqb length]; lia.
Qed.
(** ... and up to two levels the count is exact ... *)
Theorem C41_nested_two : forall e, depth e <= 2 -> count isNestedOnce e = count isNested e.
Proof.
  assert (forall e d p, In p (parts d e) -> isLoop p = true -> S (fst p) <= list_max (map fst (parts d e))) as X.
  { assert (forall d l p, Forall (fun e => forall d p, In p (parts d e) -> isLoop p = true -> S (fst p) <= list_max (map fst (parts d e))) l ->
      In p (flat_map (parts d) l) -> isLoop p = true -> S (fst p) <= list_max (map fst (flat_map (parts d) l))) as FM.
    { intros d l p HF. induction HF as [|x r Hx Hr IH']; cbn [flat_map]; [intros []|]. intros HI HL. rewrite map_app, list_max_app. apply in_app_iff in HI as [HI|HI].
      - specialize (Hx d p HI HL). lia.
      - specialize (IH' HI HL). lia. }
    assert (forall d e, d <= list_max (map fst (parts d e))) as HD by (intros d e; destruct e; cbn; lia).
    intros e. induction e as [| |g|sa|sa|sa|a IH|l IH|l IH|r q|n l IH|m v i s IHi IHs|a IH|a IH|k l r IHl IHr] using expr_ind'; intros d p HI HL.
    all: cbn [parts] in HI; destruct HI as [<- | HI]; try discriminate HL; try contradiction HI; cbn [parts map fst list_max fold_right] in *; fold (list_max) in *.
    - specialize (IH d p HI HL). change (fold_right Nat.max 0) with list_max. lia.
    - specialize (FM d l p IH HI HL). change (fold_right Nat.max 0) with list_max. lia.
    - specialize (FM d l p IH HI HL). change (fold_right Nat.max 0) with list_max. lia.
    - specialize (FM d l p IH HI HL). change (fold_right Nat.max 0) with list_max. lia.
    - change (fold_right Nat.max 0) with list_max. rewrite map_app, list_max_app. specialize (HD (S d) s). lia.
    - change (fold_right Nat.max 0) with list_max. rewrite map_app, list_max_app. apply in_app_iff in HI as [HI|HI]; [specialize (IHi d p HI HL)|specialize (IHs (S d) p HI HL)]; lia.
    - specialize (IH d p HI HL). change (fold_right Nat.max 0) with list_max. lia.
    - specialize (IH d p HI HL). change (fold_right Nat.max 0) with list_max. lia.
    - change (fold_right Nat.max 0) with list_max. rewrite map_app, list_max_app. apply in_app_iff in HI as [HI|HI]; [specialize (IHl d p HI HL)|specialize (IHr d p HI HL)]; lia. }
  intros e He. unfold count. f_equal. apply filter_ext_in. intros p HI. unfold isNestedOnce, isNested. destruct (isLoop p) eqn:E; [|reflexivity].
  specialize (X e 0 p HI E). unfold depth in He. destruct p as [[|[|d]] x]; cbn [fst] in *; try reflexivity. lia.
Qed.
(** ... but deeper loops are not counted, and a plain NOT crashes it. *)
Definition deep : expr :=
  XLoop LAny 1 (fld 0 ["a"%string]) (XLoop LEvery 2 (fld 1 []) (XLoop LAny 3 (fld 2 []) (XCmp CEq (fld 3 []) (ci 1)))).
Theorem C41_nested_refuted : exists e st, scan noStats e = Ok st /\ numNestedLoops st = 1 /\ count isNested e = 2.
Proof. exists deep. eexists. split; [reflexivity|]. split; reflexivity. Qed.
Theorem C41_not_refuted : scan noStats (XNot (XExists (fld 0 ["a"%string]))) = Panic.
Proof. reflexivity. Qed.

Example C41_case : let e := XAnd [XCmp CLt (fld 0 ["a"%string]) (XFunc (s2b "f") [ci 1; fld 0 ["b"%string]]); deep; XOr [XExists (fld 0 ["c"%string])]] in
  forallb counted (parts 0 e) = true /\ scan noStats e = Ok (Stats 3 1 3 1 1 7 2) /\ depth e = 3.
Proof. repeat split. Qed.
Print Assumptions C41_stats_exact.
Print Assumptions C41_nested_two.
