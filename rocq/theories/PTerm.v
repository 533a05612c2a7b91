(** Matching halts on every byte string.

    A computation with fuel halts when from some amount of fuel on its result no
    longer depends on the fuel, and is not "out of fuel". *)
From Coq Require Import String.
From Verif Require Import Base MTokenizer MLit MFastVal MMath SEvents SFormula MBinTree SMerge MSession MExpr MTransform SCompile MMatcher PBinTree PMerge PTokenizer PLit PFun PReset.
From Coq Require Import List NArith ZArith Arith Lia Bool.
Import ListNotations.
Open Scope nat_scope.

Definition halts {A} (X : nat -> outcome A) (P : A -> Prop) : Prop :=
  exists r F, (forall f, F <= f -> X f = r) /\ r <> OutOfFuel /\ (forall a, r = Ok a -> P a).

Lemma halts_S : forall A (X : nat -> outcome A) P, halts (fun f => X (S f)) P -> halts X P.
Proof.
  intros A X P (r & F & H & H1 & H2). exists r, (S F). split; [|auto].
  intros f Hf. destruct f as [|f]; [lia|]. apply H. lia.
Qed.
Lemma halts_ext : forall A (X Y : nat -> outcome A) P, (forall f, X f = Y f) -> halts Y P -> halts X P.
Proof. intros A X Y P E (r & F & H & H1 & H2). exists r, F. split; [|auto]. intros f Hf. rewrite E. auto. Qed.
Lemma halts_const : forall A (x : outcome A) (P : A -> Prop), x <> OutOfFuel -> (forall a, x = Ok a -> P a) -> halts (fun _ => x) P.
Proof. intros A x P H1 H2. exists x, 0. auto. Qed.
Lemma halts_ok : forall A (a : A) (P : A -> Prop), P a -> halts (fun _ => Ok a) P.
Proof. intros A a P H. apply halts_const; [discriminate|]. intros b E. now injection E as <-. Qed.
Lemma halts_panic : forall A (P : A -> Prop), halts (fun _ => Panic) P.
Proof. intros A P. apply halts_const; discriminate. Qed.
Lemma halts_bind : forall A B (X : nat -> outcome A) (k : nat -> A -> outcome B) P Q,
  halts X P -> (forall a, P a -> halts (fun f => k f a) Q) -> halts (fun f => obind (X f) (k f)) Q.
Proof.
  intros A B X k P Q (r & F & H & H1 & H2) HK. destruct r as [a| | |].
  - destruct (HK a (H2 a eq_refl)) as (r' & F' & H' & H1' & H2'). exists r', (max F F').
    split; [|auto]. intros f Hf. rewrite H by lia. cbn [obind]. apply H'. lia.
  - exists Err, F. split; [|split; discriminate]. intros f Hf. now rewrite H.
  - exists Panic, F. split; [|split; discriminate]. intros f Hf. now rewrite H.
  - contradiction.
Qed.
Lemma halts_mono : forall A (X : nat -> outcome A) (P Q : A -> Prop), halts X P -> (forall a, P a -> Q a) -> halts X Q.
Proof. intros A X P Q (r & F & H & H1 & H2) HPQ. exists r, F. auto 6. Qed.

(** ** The predicate tree *)

(** Children come after their parent. *)
Definition treeOk (T : list node) : Prop := forall i d, nth_error T i = Some d ->
  (0 < i -> n_parent d < i) /\ (hasLeft (n_type d) = true -> i < n_left d) /\ (hasRight (n_type d) = true -> i < n_right d).

Lemma lay_treeOk : forall f p i, (p < i \/ i = 0) -> forall j d, nth_error (lay p i f) j = Some d ->
  (0 < i + j -> n_parent d < i + j) /\ (hasLeft (n_type d) = true -> i + j < n_left d) /\ (hasRight (n_type d) = true -> i + j < n_right d).
Proof.
  induction f as [|u a IH|b a IHa c IHc]; intros p i Hp j d H; cbn [lay] in H.
  - destruct j as [|[|j]]; cbn in H; try discriminate. injection H as <-. cbn. repeat split; try discriminate. lia.
  - destruct u; (destruct j as [|j]; cbn [nth_error] in H;
      [injection H as <-; cbn; repeat split; try discriminate; lia
      |apply (IH i (S i)) in H; [|lia]; replace (i + S j) with (S i + j) by lia; exact H]).
  - destruct j as [|j]; cbn [nth_error] in H.
    + injection H as <-. cbn [n_parent n_left n_right n_type]. repeat split; intros; lia.
    + destruct (Nat.lt_ge_cases j (length (lay i (S i) a))) as [Hj|Hj].
      * rewrite nth_error_app1 in H by exact Hj. apply (IHa i (S i)) in H; [|lia].
        replace (i + S j) with (S i + j) by lia. exact H.
      * rewrite nth_error_app2 in H by exact Hj. rewrite lay_length in *.
        apply (IHc i (S i + fsize a)) in H; [|lia].
        replace (i + S j) with (S i + fsize a + (j - fsize a)) by lia. exact H.
Qed.
Lemma lay0_treeOk : forall f, treeOk (lay 0 0 f).
Proof. intros f i d H. apply (lay_treeOk f 0 0) in H; auto. Qed.

Section Tree.
  Variable T : list node.
  Hypothesis HT : treeOk T.

  Lemma idx_fuel : forall A (l : list A) i, idx l i <> OutOfFuel.
  Proof. intros A l i. unfold idx. destruct (nth_error l i); discriminate. Qed.
  Lemma idx_inv : forall A (l : list A) i x, idx l i = Ok x -> nth_error l i = Some x.
  Proof. intros A l i x H. unfold idx in H. destruct (nth_error l i); inversion H; auto. Qed.
  Lemma bind_fuel : forall A B (x : outcome A) (k : A -> outcome B),
    x <> OutOfFuel -> (forall a, x = Ok a -> k a <> OutOfFuel) -> obind x k <> OutOfFuel.
  Proof. intros A B [a| | |] k H1 H2; cbn; auto; discriminate. Qed.

  Lemma resolveRecursive_fuel : forall fuel d i, length T - i < fuel -> resolveRecursive fuel T d i <> OutOfFuel.
  Proof.
    induction fuel as [|f IH]; intros d i Hf; [lia|]. cbn [resolveRecursive].
    apply bind_fuel; [apply idx_fuel|]. intros n En. apply idx_inv in En.
    assert (i < length T) as Hi by (apply nth_error_Some; congruence).
    destruct (HT _ _ En) as (_ & HL & HR).
    apply bind_fuel.
    - destruct (hasLeft (n_type n)); [|discriminate]. specialize (HL eq_refl).
      apply bind_fuel; [apply idx_fuel|]. intros v _. destruct (isUnknown v); [|discriminate]. apply IH. lia.
    - intros d1 _. destruct (hasRight (n_type n)); [|discriminate]. specialize (HR eq_refl).
      apply bind_fuel; [apply idx_fuel|]. intros v _. destruct (isUnknown v); [|discriminate]. apply IH. lia.
  Qed.

  Lemma checkNode_fuel : forall d i, checkNode T d i <> OutOfFuel.
  Proof.
    intros d i. unfold checkNode. apply bind_fuel; [apply idx_fuel|]. intros n _.
    destruct (n_type n); try discriminate; repeat (apply bind_fuel; [apply idx_fuel|intros]); discriminate.
  Qed.

  Lemma markNode_fuel : forall fuel st d i v, i < fuel -> markNode fuel T st d i v <> OutOfFuel.
  Proof.
    induction fuel as [|f IH]; intros st d i v Hf; [lia|]. cbn [markNode].
    apply bind_fuel; [apply idx_fuel|]. intros x _. destruct (negb (isUnknown x)); [discriminate|].
    apply bind_fuel; [apply resolveRecursive_fuel; lia|]. intros d1 _.
    destruct (Nat.eqb i 0 || Nat.eqb i st) eqn:Eb; [discriminate|].
    apply bind_fuel; [apply idx_fuel|]. intros n En. apply idx_inv in En.
    apply bind_fuel; [apply checkNode_fuel|]. intros [b|] _; [|discriminate].
    apply IH. destruct (HT _ _ En) as (HP & _). apply orb_false_iff in Eb as [E0 _].
    apply Nat.eqb_neq in E0. lia.
  Qed.
  Lemma mark_fuel : forall st d i v, mark T st d i v <> OutOfFuel.
  Proof.
    intros st d i v. destruct (Nat.lt_ge_cases i (length T)) as [Hi|Hi]; [apply markNode_fuel; lia|].
    unfold mark. cbn [markNode]. apply bind_fuel; [apply idx_fuel|]. intros x _.
    destruct (negb (isUnknown x)); [discriminate|]. cbn [resolveRecursive].
    unfold idx at 1. apply nth_error_None in Hi. rewrite Hi. cbn. discriminate.
  Qed.

  Lemma resetNodeRec_fuel : forall fuel d i, length T - i < fuel -> resetNodeRec fuel T d i <> OutOfFuel.
  Proof.
    induction fuel as [|f IH]; intros d i Hf; [lia|]. cbn [resetNodeRec].
    apply bind_fuel; [apply idx_fuel|]. intros x _.
    apply bind_fuel; [apply idx_fuel|]. intros n En. apply idx_inv in En.
    assert (i < length T) as Hi by (apply nth_error_Some; congruence).
    destruct (HT _ _ En) as (_ & HL & HR).
    apply bind_fuel.
    - destruct (hasLeft (n_type n)); [|discriminate]. specialize (HL eq_refl). apply IH. lia.
    - intros d1 _. destruct (hasRight (n_type n)); [|discriminate]. specialize (HR eq_refl). apply IH. lia.
  Qed.
  Lemma resetNode_fuel : forall d i, resetNode T d i <> OutOfFuel.
  Proof. intros. apply resetNodeRec_fuel. lia. Qed.

  Lemma resolveLoop_fuel : forall n st d, resolveLoop n T st d <> OutOfFuel.
  Proof.
    induction n as [|n IH]; intros st d; [discriminate|]. cbn [resolveLoop].
    apply bind_fuel; [apply idx_fuel|]. intros x _.
    apply bind_fuel; [destruct (isUnknown x); [apply mark_fuel|discriminate]|]. intros d1 _.
    apply bind_fuel; [apply idx_fuel|]. intros r _. destruct (negb (isUnknown r)); [discriminate|apply IH].
  Qed.
  Lemma resolveAll_fuel : forall st d, resolveAll T st d <> OutOfFuel.
  Proof.
    intros st d. unfold resolveAll, isResolved. apply bind_fuel; [|intros r _; destruct r; [discriminate|apply resolveLoop_fuel]].
    apply bind_fuel; [apply idx_fuel|discriminate].
  Qed.
  Lemma isResolved_fuel : forall d i, isResolved d i <> OutOfFuel.
  Proof. intros. unfold isResolved. apply bind_fuel; [apply idx_fuel|discriminate]. Qed.
  Lemma isTrue_fuel : forall d i, isTrue d i <> OutOfFuel.
  Proof. intros. unfold isTrue. apply bind_fuel; [apply idx_fuel|discriminate]. Qed.

  (** A resolved root stays resolved. *)
  Definition rooted (d : sdata) : Prop := isResolved d 0 = Ok true.
  Lemma rooted_iff : forall d, rooted d <-> exists v, nth_error d 0 = Some v /\ isUnknown v = false.
  Proof.
    intro d. unfold rooted, isResolved, idx. destruct (nth_error d 0) as [v|]; cbn.
    - split.
      + intro H. exists v. split; auto. destruct (isUnknown v); [discriminate|auto].
      + intros (w & E & H). injection E as ->. now rewrite H.
    - split; [discriminate|]. intros (w & E & _). discriminate.
  Qed.
  Lemma isResolved_rooted : forall d b, isResolved d 0 = Ok b -> b = true -> rooted d.
  Proof. unfold rooted. intros; subst; auto. Qed.

  Lemma rooted_upd : forall d i v, isUnknown v = false -> rooted d -> rooted (upd d i v).
  Proof.
    intros d i v Hv H. rewrite rooted_iff in *. destruct H as (w & E & Hw). destruct d as [|x d]; [discriminate|].
    destruct i as [|i]; cbn in *; eauto.
  Qed.
  Lemma resolveRecursive_rooted : forall fuel d i d', resolveRecursive fuel T d i = Ok d' -> rooted d -> rooted d'.
  Proof.
    induction fuel as [|f IH]; intros d i d' H Hr; [discriminate|]. cbn [resolveRecursive] in H.
    destruct (idx T i) as [n| | |]; try discriminate. cbn [obind] in H.
    match type of H with obind ?X _ = _ => destruct X as [d1| | |] eqn:E1; try discriminate end. cbn [obind] in H.
    assert (rooted d1) as Hr1.
    { destruct (hasLeft (n_type n)); [|injection E1 as <-; auto].
      destruct (idx d (n_left n)) as [v| | |]; try discriminate. cbn [obind] in E1.
      destruct (isUnknown v); [|injection E1 as <-; auto]. eapply IH; [exact E1|]. now apply rooted_upd. }
    destruct (hasRight (n_type n)); [|injection H as <-; auto].
    destruct (idx d1 (n_right n)) as [v| | |]; try discriminate. cbn [obind] in H.
    destruct (isUnknown v); [|injection H as <-; auto]. eapply IH; [exact H|]. now apply rooted_upd.
  Qed.
  Lemma markNode_rooted : forall fuel st d i v d', markNode fuel T st d i v = Ok d' -> rooted d -> rooted d'.
  Proof.
    induction fuel as [|f IH]; intros st d i v d' H Hr; [discriminate|]. cbn [markNode] in H.
    destruct (idx d i) as [x| | |]; try discriminate. cbn [obind] in H.
    destruct (negb (isUnknown x)); [discriminate|].
    match type of H with obind ?X _ = _ => destruct X as [d1| | |] eqn:E1; try discriminate end. cbn [obind] in H.
    assert (rooted d1) as Hr1 by (eapply resolveRecursive_rooted; [exact E1|]; apply rooted_upd; [now destruct v|auto]).
    destruct (Nat.eqb i 0 || Nat.eqb i st); [injection H as <-; auto|].
    destruct (idx T i) as [n| | |]; try discriminate. cbn [obind] in H.
    destruct (checkNode T d1 (n_parent n)) as [[b|]| | |]; try discriminate; cbn [obind] in H; eauto.
    now injection H as <-.
  Qed.
  Lemma mark_rooted : forall st d i v d', mark T st d i v = Ok d' -> rooted d -> rooted d'.
  Proof. intros st d i v d'. apply markNode_rooted. Qed.
  Lemma resetNodeRec_rooted : forall fuel d i d', i <> 0 -> resetNodeRec fuel T d i = Ok d' -> rooted d -> rooted d'.
  Proof.
    induction fuel as [|f IH]; intros d i d' Hi H Hr; [discriminate|]. cbn [resetNodeRec] in H.
    destruct (idx d i) as [x| | |]; try discriminate. cbn [obind] in H.
    destruct (idx T i) as [n| | |] eqn:En; try discriminate. cbn [obind] in H. apply idx_inv in En.
    destruct (HT _ _ En) as (_ & HL & HR).
    match type of H with obind ?X _ = _ => destruct X as [d1| | |] eqn:E1; try discriminate end. cbn [obind] in H.
    assert (rooted (upd d i SUnknown)) as Hr0.
    { rewrite rooted_iff in *. destruct d as [|y d]; [destruct Hr as (w & E & _); discriminate|].
      destruct i; [contradiction|]. exact Hr. }
    assert (rooted d1) as Hr1.
    { destruct (hasLeft (n_type n)); [|injection E1 as <-; auto]. specialize (HL eq_refl).
      eapply (IH _ (n_left n)); eauto. lia. }
    destruct (hasRight (n_type n)); [|injection H as <-; auto]. specialize (HR eq_refl).
    eapply (IH _ (n_right n)); eauto. lia.
  Qed.
  Lemma resetNode_rooted : forall d i d', i <> 0 -> resetNode T d i = Ok d' -> rooted d -> rooted d'.
  Proof. intros d i d'. apply resetNodeRec_rooted. Qed.
End Tree.

(** ** Reading the document *)
Lemma step_moves : forall doc p t a b, step doc p = SOk t a b -> p <= b /\ (t <> TEnd -> p < b /\ b <= length doc /\ p < length doc).
Proof.
  intros doc p t a b H. destruct (Nat.le_gt_cases p (length doc)) as [Hp|Hp].
  - destruct (step_progress _ _ _ _ _ Hp H) as ((H1 & H2) & H3 & H4 & H5). split; [lia|]. intro Hne. specialize (H4 Hne). lia.
  - unfold step in H. replace (length doc <=? p) with true in H by (symmetry; apply Nat.leb_le; lia).
    inversion H; subst. split; [lia|]. congruence.
Qed.

Lemma leaveValue_fuel : forall fuel doc d p, length doc - p < fuel -> leaveValue fuel doc d p <> OutOfFuel.
Proof.
  induction fuel as [|f IH]; intros doc d p Hf; [lia|]. cbn [leaveValue].
  destruct (step doc p) as [t a b|] eqn:Es; [|discriminate].
  apply step_moves in Es as [_ Hm].
  destruct t; try (apply IH; destruct Hm as (? & ? & ?); [discriminate|lia]); try discriminate;
    destruct d; try discriminate; apply IH; destruct Hm as (? & ? & ?); try discriminate; lia.
Qed.
Lemma leaveValue_post : forall fuel doc d p p' e, leaveValue fuel doc d p = Ok (p', e) -> p <= p' /\ (e = true -> step doc p' = SErr).
Proof.
  induction fuel as [|f IH]; intros doc d p p' e H; [discriminate|]. cbn [leaveValue] in H.
  destruct (step doc p) as [t a b|] eqn:Es.
  - apply step_moves in Es as [Hm _].
    assert (forall d', leaveValue f doc d' b = Ok (p', e) -> p <= p' /\ (e = true -> step doc p' = SErr)) as K.
    { intros d' HH. apply IH in HH as [? ?]. split; auto. lia. }
    destruct t; try discriminate; eauto; destruct d; eauto; injection H as <- <-; split; auto; discriminate.
  - injection H as <- <-. auto.
Qed.

Lemma parseEscString_fuel : forall l s, parseEscString l s <> OutOfFuel.
Proof.
  intros l s. unfold parseEscString. destruct (unescape_safe (slice l 1 (length l - 1)) s) as (u & -> & _).
  destruct (u_res u); discriminate.
Qed.
Lemma parseLit_fuel : forall o t l, parseLit o t l <> OutOfFuel.
Proof.
  intros o t l. unfold parseLit. destruct t; try discriminate.
  pose proof (parseEscString_fuel l (repeat 0%N 64)) as H. now destruct (parseEscString l (repeat 0%N 64)) as [[[? ?] ?]| | |].
Qed.
Lemma keyOf_fuel : forall t l, keyOf t l <> OutOfFuel.
Proof.
  intros t l. unfold keyOf. destruct t; try discriminate.
  pose proof (parseEscString_fuel l (repeat 0%N 64)) as H. now destruct (parseEscString l (repeat 0%N 64)) as [[[? ?] ?]| | |].
Qed.

(** The functions of operands. *)
Definition fnFuel (f : fn) : Prop :=
  match f with
  | Fn1 h => forall o x, h o x <> OutOfFuel
  | Fn2 h => forall o x y, h o x y <> OutOfFuel
  end.
Lemma table_fuel : Forall (fun nf => fnFuel (snd nf)) funTable.
Proof.
  unfold funTable.
  repeat (apply Forall_cons; [cbn [snd fnFuel]; intros;
    cbv [mathRound mathAbs mathFun1 mathFun2 mathDegrees mathRadiansV mathNeg mathAdd mathSub mathMul mathDiv mathMod addMultShared
         genericFloat genericInt generic2Ints generic2Uints generic2Floats];
    repeat match goal with
    | |- Ok _ <> OutOfFuel => discriminate
    | |- Panic <> OutOfFuel => discriminate
    | |- (let '(_, _) := ?p in _) <> _ => destruct p
    | |- (if ?b then _ else _) <> _ => destruct b
    | |- match ?b with _ => _ end <> _ => destruct b
    end|]).
  constructor.
Qed.
Lemma resolveParam_fuel : forall o sv lit, (forall k, sv k <> OutOfFuel) -> forall d, resolveParam o sv d lit <> OutOfFuel.
Proof.
  intros o sv lit Hs. fix IH 1. intros [|s|name ps|v]; cbn [resolveParam].
  - clear IH. destruct lit; discriminate.
  - apply Hs.
  - destruct (funLookup name funTable) as [[f|f]|] eqn:Ef; [..|discriminate].
    + apply funLookup_in in Ef. pose proof table_fuel as TF. rewrite Forall_forall in TF. apply TF in Ef. cbn in Ef.
      destruct ps as [|p1 r]; [discriminate|]. apply bind_fuel; [apply IH|]. intros; apply Ef.
    + apply funLookup_in in Ef. pose proof table_fuel as TF. rewrite Forall_forall in TF. apply TF in Ef. cbn in Ef.
      destruct ps as [|p1 [|p2 r]]; [discriminate|apply bind_fuel; [apply IH|discriminate]|].
      apply bind_fuel; [apply IH|]. intros a _. apply bind_fuel; [apply IH|]. intros; apply Ef.
  - discriminate.
Qed.
Lemma opResult_fuel : forall o sv op lit, (forall k, sv k <> OutOfFuel) -> opResult o sv op lit <> OutOfFuel.
Proof.
  intros o sv op lit Hs. unfold opResult, operand.
  apply bind_fuel; [destruct (op_lhs op); [apply bind_fuel; [now apply resolveParam_fuel|discriminate]|discriminate]|].
  intros [l m1] _.
  apply bind_fuel; [destruct (op_rhs op); [apply bind_fuel; [now apply resolveParam_fuel|discriminate]|discriminate]|].
  intros [r m2] _. destruct (m1 || m2); [discriminate|]. destruct (applyOp o (op_op op) l r). discriminate.
Qed.
Lemma goSlice_fuel : forall d a b, goSlice d a b <> OutOfFuel.
Proof. intros. unfold goSlice. destruct (_ && _); discriminate. Qed.
Lemma literalFromSlot_fuel : forall E sl k, literalFromSlot E sl k <> OutOfFuel.
Proof.
  intros E sl [|i]; [discriminate|]. cbn [literalFromSlot]. apply bind_fuel; [apply idx_fuel|]. intros [st sz] _.
  destruct (step (me_doc E) st) as [t a b|]; [|discriminate]. destruct (isLiteralToken t); [apply parseLit_fuel|].
  destruct (Nat.ltb 0 sz); [|discriminate].
  destruct t; try discriminate; (apply bind_fuel; [apply goSlice_fuel|discriminate]).
Qed.

(** ** The mutually recursive part *)

(** What the heap of a compiled filter looks like to this argument: [inner] tells
    the nodes that lie inside a loop.  Children and loop bodies come later in the
    heap; only outer nodes have deferred loops. *)
Definition heapOk (H : list execnode) (inner : nat -> bool) : Prop := forall n x, nth_error H n = Some x ->
  Forall (fun kc => n < snd kc /\ inner (snd kc) = inner n) (x_elems x)
  /\ Forall (fun l => n < lp_node l /\ inner (lp_node l) = true /\ lp_bucket l <> 0) (x_loops x)
  /\ (forall af, x_after x = Some af ->
        Forall (fun l => n < lp_node l /\ inner (lp_node l) = true /\ lp_bucket l <> 0) (af_loops af)
        /\ (inner n = true -> af_loops af = [])).

Section Halt.
  Variable E : menv.
  Variable inner : nat -> bool.
  Hypothesis HT : treeOk (me_tree E).
  Hypothesis HH : heapOk (me_heap E) inner.

  Definition stuck (s : mst) : Prop := step (me_doc E) (ms_pos s) = SErr.
  Definition rt (s : mst) : Prop := rooted (ms_data s).
  (** Running from [s] to [s']: the position has not gone back, except when the
      tokenizer is stuck at an error or (outside loops) the filter is decided. *)
  Definition ahead (i : bool) (s s' : mst) : Prop :=
    (rt s -> rt s') /\ (ms_pos s <= ms_pos s' \/ stuck s' \/ (i = false /\ rt s')).
  Definition stays (i : bool) (s s' : mst) : Prop :=
    (rt s -> rt s') /\ (ms_pos s = ms_pos s' \/ stuck s' \/ (i = false /\ rt s')).

  Lemma ahead_refl : forall i s, ahead i s s. Proof. split; auto. Qed.
  Lemma stays_refl : forall i s, stays i s s. Proof. split; auto. Qed.
  Lemma stuck_eq : forall s s', ms_pos s = ms_pos s' -> stuck s -> stuck s'.
  Proof. unfold stuck. intros s s' <-. auto. Qed.
  Lemma ahead_stays : forall i s s1 s2, ahead i s s1 -> stays i s1 s2 -> ahead i s s2.
  Proof.
    intros i s s1' s2' [A1 A2] [B1 B2]. split; [auto|]. destruct B2 as [B2|[B2|B2]]; auto.
    destruct A2 as [A2|[A2|[A2 A3]]]; [left; lia|right; left; eapply stuck_eq; eauto|right; right; auto].
  Qed.
  Lemma stays_trans : forall i s s1 s2, stays i s s1 -> stays i s1 s2 -> stays i s s2.
  Proof.
    intros i s s1' s2' [A1 A2] [B1 B2]. split; [auto|]. destruct B2 as [B2|[B2|B2]]; auto.
    destruct A2 as [A2|[A2|[A2 A3]]]; [left; lia|right; left; eapply stuck_eq; eauto|right; right; auto].
  Qed.
  Lemma stays_ahead : forall i s s', stays i s s' -> ahead i s s'.
  Proof. intros i s s' [A1 [A2|A2]]; split; auto. left. lia. Qed.
  Lemma ahead_out : forall i s s', ahead true s s' -> ahead i s s'.
  Proof. intros i s s' [A1 [A2|[A2|[A2 _]]]]; [split; auto..|discriminate]. Qed.
  Lemma ahead_pos : forall i s s', (rt s -> rt s') -> ms_pos s <= ms_pos s' -> ahead i s s'.
  Proof. intros i s s' E1 E2. split; auto. Qed.
  (** Moving on from a state that is behind. *)
  Lemma ahead_from : forall i s1 s s2, ms_pos s <= ms_pos s1 -> (rt s -> rt s1) -> ahead i s1 s2 -> ahead i s s2.
  Proof. intros i s1' s s2' H1 H2 [A1 [A2|A2]]; split; auto. left. lia. Qed.

  Lemma matchOp_halts : forall op lit s, matchOp E op lit s <> OutOfFuel.
  Proof.
    intros op lit s. unfold matchOp. apply bind_fuel; [apply isResolved_fuel|]. intros [] _; [discriminate|].
    apply bind_fuel; [apply opResult_fuel; intro; apply literalFromSlot_fuel|]. intros [res c] _.
    apply bind_fuel; [now apply mark_fuel|]. intros; discriminate.
  Qed.
  Lemma matchOp_stays : forall op lit s s', matchOp E op lit s = Ok s' -> (rt s -> rt s') /\ ms_pos s' = ms_pos s.
  Proof.
    intros op lit s s' H. unfold matchOp in H. destruct (isResolved (ms_data s) (op_bucket op)) as [[]| | |]; try discriminate; cbn [obind] in H.
    { injection H as <-. auto. }
    destruct (opResult _ _ _ _) as [[res c]| | |]; try discriminate; cbn [obind] in H.
    destruct (mark _ _ _ _ _) as [d| | |] eqn:Em; try discriminate; cbn [obind] in H.
    injection H as <-. split; [|destruct c; reflexivity]. intro Hr. apply (mark_rooted _ _ _ _ _ _ Em) in Hr. destruct c; exact Hr.
  Qed.
  Lemma runOps_halts : forall ops lit s, runOps E ops lit s <> OutOfFuel.
  Proof.
    induction ops as [|op r IH]; intros lit s; [discriminate|]. cbn [runOps].
    apply bind_fuel; [apply matchOp_halts|]. intros sa _. apply bind_fuel; [apply isResolved_fuel|].
    intros [] _; [discriminate|apply IH].
  Qed.
  Lemma runOps_stays : forall ops lit s s' ret, runOps E ops lit s = Ok (s', ret) ->
    (rt s -> rt s') /\ ms_pos s' = ms_pos s /\ (ret = true -> rt s').
  Proof.
    induction ops as [|op r IH]; intros lit s s' ret H; cbn [runOps] in H.
    { injection H as <- <-. repeat split; auto. discriminate. }
    destruct (matchOp E op lit s) as [sa| | |] eqn:Em; try discriminate; cbn [obind] in H.
    apply matchOp_stays in Em as [M1 M2].
    destruct (isResolved (ms_data sa) 0) as [[]| | |] eqn:Er; try discriminate; cbn [obind] in H.
    - injection H as <- <-. auto.
    - apply IH in H as (A & B & C). repeat split; auto. congruence.
  Qed.
  Lemma leave_halts : forall s, leave E s <> OutOfFuel.
  Proof.
    intro s. unfold leave. apply bind_fuel; [apply leaveValue_fuel; lia|]. intros [p e] _. discriminate.
  Qed.
  Lemma leave_ahead : forall s s' e, leave E s = Ok (s', e) -> (rt s -> rt s') /\ ms_pos s <= ms_pos s' /\ (e = true -> stuck s').
  Proof.
    intros s s' e H. unfold leave in H. destruct (leaveValue _ _ _ _) as [[p e']| | |] eqn:El; try discriminate.
    cbn [obind] in H. injection H as <- <-. apply leaveValue_post in El as [H1 H2]. repeat split; auto.
  Qed.
  Lemma leave_stuck : forall s s' e, stuck s -> leave E s = Ok (s', e) -> stuck s'.
  Proof.
    intros s s' e Hs H. unfold leave in H. cbn [leaveValue] in H. unfold stuck in *. rewrite Hs in H. cbn [obind] in H.
    injection H as <- <-. exact Hs.
  Qed.
  Lemma skip_halts : forall t s, skipValue E t s <> OutOfFuel.
  Proof. intros t s. unfold skipValue. destruct (isLiteralToken t); [discriminate|]. destruct t; try discriminate; apply leave_halts. Qed.
  Lemma skip_ahead : forall t s s' e, skipValue E t s = Ok (s', e) -> (rt s -> rt s') /\ ms_pos s <= ms_pos s' /\ t <> TEnd.
  Proof.
    intros t s s' e H. unfold skipValue in H. destruct (isLiteralToken t) eqn:El.
    - injection H as <- <-. repeat split; auto. intros ->. discriminate.
    - destruct t; try discriminate; apply leave_ahead in H as (A & B & C); repeat split; auto; discriminate.
  Qed.
  Lemma store_halts : forall x a s, storeSlot x a s <> OutOfFuel.
  Proof. intros x a s. unfold storeSlot. destruct (x_store x); [discriminate|]. apply bind_fuel; [apply idx_fuel|discriminate]. Qed.
  Lemma store_stays : forall x a s s', storeSlot x a s = Ok s' -> (rt s -> rt s') /\ ms_pos s' = ms_pos s.
  Proof.
    intros x a s s' H. unfold storeSlot in H. destruct (x_store x); [now injection H as <-|].
    destruct (idx _ _); try discriminate. cbn [obind] in H. now injection H as <-.
  Qed.

  (** The contract of each function. *)
  Definition HExec (n : nat) : Prop := forall t a s,
    halts (fun f => matchExec f E t a n s)
      (fun r => ahead (inner n) s (fst r) /\ (snd r = true -> stuck (fst r)) /\ t <> TEnd).

  Definition after3 (i : bool) (s : mst) (r : mst * bool * bool) : Prop :=
    ahead i s (fst (fst r)) /\ (snd (fst r) = true -> stuck (fst (fst r))).

  (** Members and elements. *)
  Section OA.
    Variable x : execnode.
    Variable i : bool.
    Hypothesis Hx : forall k c, lookup k (x_elems x) = Some c -> HExec c /\ inner c = i.

    Lemma oa_stuck : forall t j s, stuck s -> halts (fun f => matchOA f E t x false j s) (fun r => r = (s, true, true)).
    Proof.
      intros t j s Hs. apply halts_S. eapply halts_ext; [intro; apply matchOA_S|]. cbv beta.
      unfold stuck in Hs. rewrite Hs. apply halts_ok. reflexivity.
    Qed.

    Lemma body_halts : forall t j s,
      (forall s3, ms_pos s < length (me_doc E) -> ms_pos s < ms_pos s3 -> halts (fun f => matchOA f E t x false j s3) (after3 i s3)) ->
      halts (fun f => mBody E f t x j s) (after3 i s).
    Proof.
      intros t j s IH. unfold mBody. destruct (step (me_doc E) (ms_pos s)) as [t1 a1 b1|] eqn:E1.
      2: { apply halts_ok. split; cbn; [apply ahead_refl|]. intros _. exact E1. }
      pose proof (step_moves _ _ _ _ _ E1) as [M1 M1'].
      destruct (tok_eqb t1 (endTok t)).
      { apply halts_ok. split; cbn; [apply ahead_pos; auto|discriminate]. }
      assert (forall key tv av b, b1 <= b -> (tv <> TEnd -> ms_pos s < b /\ ms_pos s < length (me_doc E)) ->
        halts (fun f => match lookup key (x_elems x) with
              | Some c =>
                  do (s3, _) <- matchExec f E tv av c (setPos s b);
                  do done <- isResolved (ms_data s3) 0;
                  if done : bool then Ok (s3, false, true)
                  else matchOA f E t x false j s3
              | None =>
                  do (s3, _) <- skipValue E tv (setPos s b);
                  matchOA f E t x false j s3
              end) (after3 i s)) as K.
      { intros key tv av b Hb Hlt. destruct (lookup key (x_elems x)) as [c|] eqn:El.
        - destruct (Hx _ _ El) as [HE Hi]. eapply halts_bind; [apply HE|]. intros [s3 e] (A & Ae & At). cbn [fst snd] in *.
          rewrite Hi in A. destruct (Hlt At) as [L1 L2].
          assert (ahead i s s3) as A' by (apply (ahead_from _ (setPos s b)); cbn; auto; lia).
          eapply (halts_bind _ _ (fun _ => isResolved (ms_data s3) 0) _ (fun done => isResolved (ms_data s3) 0 = Ok done)).
          { apply halts_const; [apply isResolved_fuel|auto]. }
          intros [] Hd.
          { apply halts_ok. split; cbn; [auto|discriminate]. }
          destruct A as [A1 [A2|[A2|[_ A2]]]].
          + cbn [setPos ms_pos] in A2. eapply halts_mono; [apply IH; lia|]. intros r [R1 R2]. split; auto.
            apply (ahead_from _ s3); auto; lia.
          + eapply halts_mono; [now apply oa_stuck|]. intros r ->. split; cbn; auto.
          + unfold rt, rooted in A2. congruence.
        - eapply (halts_bind _ _ (fun _ => skipValue E tv (setPos s b)) _ (fun r => skipValue E tv (setPos s b) = Ok r)).
          { apply halts_const; [apply skip_halts|auto]. }
          intros [s3 e] Hs. apply skip_ahead in Hs as (A & B & C). cbn [setPos ms_pos] in *. destruct (Hlt C) as [L1 L2].
          eapply halts_mono; [apply IH; lia|]. intros r [R1 R2]. split; auto.
          apply (ahead_from _ s3); auto; lia. }
      unfold kvOf. cbn [setPos ms_pos]. destruct (isArr t).
      - cbn [obind]. apply (K (indexKey j) t1 a1 b1); auto. intro Hne. apply M1' in Hne. lia.
      - pose proof (keyOf_fuel t1 (slice (me_doc E) a1 b1)) as KF.
        destruct (keyOf t1 (slice (me_doc E) a1 b1)) as [key| | |] eqn:Ek; cbn [obind]; try (apply halts_const; congruence).
        assert (t1 <> TEnd) as Hne by (intros ->; discriminate). apply M1' in Hne as (N1 & N2 & N3).
        destruct (step (me_doc E) b1) as [t2 a2 b2|] eqn:E2; cbn [obind].
        2: { apply halts_ok. split; cbn; [apply ahead_pos; cbn; auto|]. intros _. exact E2. }
        pose proof (step_moves _ _ _ _ _ E2) as [M2 _].
        destruct (tok_eqb t2 TObjectKeyDelim); [|apply halts_panic].
        destruct (step (me_doc E) b2) as [t3 a3 b3|] eqn:E3; cbn [obind].
        2: { apply halts_ok. split; cbn; [apply ahead_pos; cbn; auto; lia|]. intros _. exact E3. }
        pose proof (step_moves _ _ _ _ _ E3) as [M3 _].
        change (setPos (setPos s b1) b3) with (setPos s b3). apply (K key t3 a3 b3); lia.
    Qed.

    Lemma oa_halts : forall m t first j s, length (me_doc E) - ms_pos s < m ->
      halts (fun f => matchOA f E t x first j s) (after3 i s).
    Proof.
      induction m as [|m IH]; intros t first j s Hm; [lia|].
      apply halts_S. eapply halts_ext; [intro; apply matchOA_S|]. cbv beta.
      assert (forall j s, length (me_doc E) - ms_pos s < S m -> halts (fun f => mBody E f t x j s) (after3 i s)) as KB.
      { intros j' s' Hm'. apply body_halts. intros s3 L1 L2. apply IH. lia. }
      destruct first; [now apply KB|].
      destruct (step (me_doc E) (ms_pos s)) as [t1 a1 b1|] eqn:E1.
      2: { apply halts_ok. split; cbn; [apply ahead_refl|]. intros _. exact E1. }
      pose proof (step_moves _ _ _ _ _ E1) as [M1 M1'].
      destruct t1; try apply halts_panic; try (apply halts_ok; split; cbn; [apply ahead_pos; auto|discriminate]).
      eapply halts_mono; [apply (KB (S j) (setPos s b1)); cbn; lia|]. intros r [R1 R2]. split; auto.
      apply (ahead_from _ (setPos s b1)); auto.
    Qed.
  End OA.

  (** One loop. *)
  Section Loop.
    Variable l : loopnode.
    Hypothesis Hn : HExec (lp_node l).
    Hypothesis Hi : inner (lp_node l) = true.
    Hypothesis Hb : lp_bucket l <> 0.

    Lemma iters_stuck : forall st s, stuck s -> halts (fun f => matchIters f E l false st s) (fun r => r = (s, true, st)).
    Proof.
      intros st s Hs. apply halts_S. eapply halts_ext; [intro; apply matchIters_S|]. cbv beta.
      unfold stuck in Hs. rewrite Hs. apply halts_ok. reflexivity.
    Qed.
    Lemma iter_halts : forall st s,
      (forall st' s3, ms_pos s < length (me_doc E) -> ms_pos s < ms_pos s3 -> halts (fun f => matchIters f E l false st' s3) (after3 true s3)) ->
      halts (fun f => mIter E f l st s) (after3 true s).
    Proof.
      intros st s IH. unfold mIter. destruct (step (me_doc E) (ms_pos s)) as [t1 a1 b1|] eqn:E1.
      2: { apply halts_ok. split; cbn; [apply ahead_refl|]. intros _. exact E1. }
      pose proof (step_moves _ _ _ _ _ E1) as [M1 M1'].
      destruct (tok_eqb t1 TArrayEnd).
      { apply halts_ok. split; cbn; [apply ahead_pos; auto|discriminate]. }
      eapply (halts_bind _ _ (fun _ => resetNode (me_tree E) (ms_data s) (lp_bucket l)) _
               (fun d => resetNode (me_tree E) (ms_data s) (lp_bucket l) = Ok d)).
      { apply halts_const; [now apply resetNode_fuel|auto]. }
      intros d Hd. assert (rt s -> rooted d) as Hrd by (intro; eapply resetNode_rooted; eauto).
      eapply halts_bind; [apply Hn|]. intros [s2 e] (A & Ae & At). cbn [fst snd] in *. rewrite Hi in A.
      destruct (M1' At) as (L1 & L2 & L3).
      assert (ahead true s s2) as A' by (apply (ahead_from _ (setData (setPos s b1) d)); cbn; auto; lia).
      destruct e.
      { apply halts_ok. split; cbn; auto. }
      eapply (halts_bind _ _ (fun _ => isTrue (ms_data s2) (lp_bucket l)) _ (fun _ => True)).
      { apply halts_const; [apply isTrue_fuel|auto]. }
      intros matched _. destruct (loopStep (lp_mode l) st matched) as [st' out]. destruct out.
      - eapply (halts_bind _ _ (fun _ => leave E s2) _ (fun r => leave E s2 = Ok r)).
        { apply halts_const; [apply leave_halts|auto]. }
        intros [s3 e] Hl. pose proof (leave_ahead _ _ _ Hl) as (B1 & B2 & B3). apply halts_ok. split; cbn; [|discriminate].
        destruct A' as [C1 [C2|[C2|[C2 _]]]]; [|..|discriminate].
        + split; auto. left. lia.
        + split; auto. right. left. eapply leave_stuck; eauto.
      - destruct A as [A1 [A2|[A2|[A2 _]]]]; [..|discriminate].
        + cbn [setData setPos ms_pos] in A2. eapply halts_mono; [apply IH; lia|]. intros r [R1 R2]. split; auto.
          apply (ahead_from _ s2); auto; try lia. apply A'.
        + eapply halts_mono; [now apply iters_stuck|]. intros r ->. split; cbn; auto.
    Qed.
    Lemma iters_halts : forall m first st s, length (me_doc E) - ms_pos s < m ->
      halts (fun f => matchIters f E l first st s) (after3 true s).
    Proof.
      induction m as [|m IH]; intros first st s Hm; [lia|].
      apply halts_S. eapply halts_ext; [intro; apply matchIters_S|]. cbv beta.
      assert (forall st s, length (me_doc E) - ms_pos s < S m -> halts (fun f => mIter E f l st s) (after3 true s)) as KB.
      { intros st' s' Hm'. apply iter_halts. intros st3 s3 L1 L2. apply IH. lia. }
      destruct first; [now apply KB|].
      destruct (step (me_doc E) (ms_pos s)) as [t1 a1 b1|] eqn:E1.
      2: { apply halts_ok. split; cbn; [apply ahead_refl|]. intros _. exact E1. }
      pose proof (step_moves _ _ _ _ _ E1) as [M1 M1'].
      destruct t1; try apply halts_panic; try (apply halts_ok; split; cbn; [apply ahead_pos; auto|discriminate]).
      eapply halts_mono; [apply (KB st (setPos s b1)); cbn; lia|]. intros r [R1 R2]. split; auto.
      apply (ahead_from _ (setPos s b1)); auto.
    Qed.

    Definition after2 (i : bool) (s : mst) (r : mst * bool) : Prop :=
      ahead i s (fst r) /\ (snd r = true -> stuck (fst r)).

    Lemma loop_halts : forall t s, halts (fun f => matchLoop f E t l s) (after2 true s).
    Proof.
      intros t s. apply halts_S. cbn [matchLoop]. destruct (negb (isArr t)).
      { apply halts_ok. split; cbn; [apply ahead_refl|discriminate]. }
      eapply (halts_bind _ _ (fun _ => isResolved (ms_data s) (lp_bucket l)) _ (fun _ => True)).
      { apply halts_const; [apply isResolved_fuel|auto]. }
      intros [] _.
      { eapply (halts_bind _ _ (fun _ => skipValue E t s) _ (fun r => skipValue E t s = Ok r)).
        { apply halts_const; [apply skip_halts|auto]. }
        intros [s3 e] Hs. apply skip_ahead in Hs as (A & B & C). apply halts_ok. split; cbn; [now apply ahead_pos|discriminate]. }
      eapply halts_bind; [apply (iters_halts (S (length (me_doc E)))); cbn; lia|].
      intros [[sa err] res] [A1 A2]. cbn [fst snd] in *.
      assert (ahead true s sa) as A by (apply (ahead_from _ (setStall s (lp_bucket l))); auto).
      destruct err; [apply halts_ok; split; cbn; auto|].
      eapply (halts_bind _ _ (fun _ => resetNode (me_tree E) (ms_data sa) (lp_bucket l)) _
               (fun d => resetNode (me_tree E) (ms_data sa) (lp_bucket l) = Ok d)).
      { apply halts_const; [now apply resetNode_fuel|auto]. }
      intros d Hd.
      eapply (halts_bind _ _ (fun _ => mark (me_tree E) (ms_stall s) d (lp_bucket l) res) _
               (fun d2 => mark (me_tree E) (ms_stall s) d (lp_bucket l) res = Ok d2)).
      { apply halts_const; [now apply mark_fuel|auto]. }
      intros d2 Hd2. apply halts_ok. split; cbn; [|discriminate].
      eapply ahead_stays; [exact A|]. split; [|left; reflexivity].
      intro Hr. unfold rt. cbn. eapply mark_rooted; eauto. eapply resetNode_rooted; eauto.
    Qed.
  End Loop.

  Definition loopOk (l : loopnode) : Prop := HExec (lp_node l) /\ inner (lp_node l) = true /\ lp_bucket l <> 0.

  Lemma loops_halts : forall t ls, Forall loopOk ls -> forall first save s s',
    (first = true -> s' = s) -> (first = false -> ahead true s s') -> save = ms_pos s ->
    halts (fun f => matchLoops f E t ls save first s')
      (fun r => ahead true s (fst r) /\ (snd r = Some true -> stuck (fst r))).
  Proof.
    intros t ls HF. induction HF as [|l r (Hl1 & Hl2 & Hl3) Hr IH]; intros first save s s' H1 H2 H3; apply halts_S; cbn [matchLoops].
    - apply halts_ok. split; cbn; [|discriminate]. destruct first; [rewrite H1 by auto; apply ahead_refl|auto].
    - destruct (lp_target l); [apply halts_panic|].
      eapply halts_bind; [apply loop_halts; auto|]. intros [sa err] [A1 A2]. cbn [fst snd] in *.
      assert (ahead true s sa) as A.
      { destruct first; [now rewrite <- (H1 eq_refl)|].
        apply (ahead_from _ (setPos s' save)); [cbn; lia| |exact A1]. apply H2; auto. }
      destruct err; [apply halts_ok; split; cbn; auto|].
      eapply (halts_bind _ _ (fun _ => isResolved (ms_data sa) 0) _ (fun _ => True)).
      { apply halts_const; [apply isResolved_fuel|auto]. }
      intros [] _; [apply halts_ok; split; cbn; [auto|discriminate]|].
      apply (IH false save s sa); auto. discriminate.
  Qed.

  Lemma afterLoops_halts : forall ls, Forall loopOk ls -> forall s,
    halts (fun f => afterLoops f E ls s)
      (fun r => (rt s -> rt (fst r)) /\ match snd r with Some true => stuck (fst r) | Some false => rt (fst r)
                                        | None => ls = [] -> fst r = s end).
  Proof.
    intros ls HF. induction HF as [|l r (Hl1 & Hl2 & Hl3) Hr IH]; intros s; apply halts_S; cbn [afterLoops].
    - apply halts_ok. cbn. auto.
    - destruct (lp_target l) as [[|[|i]| |]|]; try apply halts_panic.
      eapply (halts_bind _ _ (fun _ => idx (ms_slots s) i) _ (fun _ => True)).
      { apply halts_const; [apply idx_fuel|auto]. }
      intros [start q] _.
      destruct (match step (me_doc E) start with SErr => (TUnknown, start) | SOk t _ b => (t, b) end) as [t p].
      eapply halts_bind; [apply loop_halts; auto|]. intros [sa err] [A1 A2]. cbn [fst snd] in *.
      assert (rt s -> rt sa) as A by apply A1.
      destruct err; [apply halts_ok; cbn; auto|].
      eapply (halts_bind _ _ (fun _ => isResolved (ms_data sa) 0) _ (fun d => isResolved (ms_data sa) 0 = Ok d)).
      { apply halts_const; [apply isResolved_fuel|auto]. }
      intros [] Hd; [apply halts_ok; cbn; auto|].
      eapply halts_mono; [apply IH|]. intros [s' e] [B1 B2]. cbn [fst snd] in *. split; auto.
      destruct e as [[]|]; auto. discriminate.
  Qed.

  Lemma after_halts : forall i af s, Forall loopOk (af_loops af) -> (i = true -> af_loops af = []) ->
    halts (fun f => matchAfter f E af s) (fun r => stays i s (fst r) /\ (snd r = true -> stuck (fst r))).
  Proof.
    intros i af s HF Hi. apply halts_S. cbn [matchAfter].
    destruct (bool_dec i true) as [Et|Ef].
    - rewrite (Hi Et). eapply (halts_bind _ _ _ _ (fun r => r = (s, None))).
      { apply halts_S. cbn [afterLoops]. now apply halts_ok. }
      intros r ->.
      eapply (halts_bind _ _ (fun _ => runOps E (af_ops af) None s) _ (fun r => runOps E (af_ops af) None s = Ok r)).
      { apply halts_const; [apply runOps_halts|auto]. }
      intros [s2 ret] H. apply runOps_stays in H as (A & B & C).
      destruct ret; apply halts_ok; split; cbn; try discriminate; (split; [exact A|]); left; cbn; congruence.
    - apply not_true_is_false in Ef. subst i.
      eapply halts_bind; [apply afterLoops_halts; auto|]. intros [sa e] [A1 A2]. cbn [fst snd] in *.
      destruct e as [[]|].
      + apply halts_ok. cbn. split; [split; auto|auto].
      + apply halts_ok. cbn. split; [split; auto|discriminate].
      + eapply (halts_bind _ _ (fun _ => runOps E (af_ops af) None sa) _ (fun r => runOps E (af_ops af) None sa = Ok r)).
        { apply halts_const; [apply runOps_halts|auto]. }
        intros [s2 ret] H. apply runOps_stays in H as (A & B & C).
        destruct ret; apply halts_ok; split; cbn; try discriminate.
        * split; auto.
        * split; [intro; cbn; auto|left; reflexivity].
  Qed.

  Definition nodeOk (n : nat) (x : execnode) : Prop :=
    (forall k c, lookup k (x_elems x) = Some c -> HExec c /\ inner c = inner n)
    /\ Forall loopOk (x_loops x)
    /\ (forall af, x_after x = Some af -> Forall loopOk (af_loops af) /\ (inner n = true -> af_loops af = [])).

  Lemma finish_halts : forall n x a s, nodeOk n x -> halts (fun f => mFinish E f x a s) (fun r => stays (inner n) s (fst r) /\ snd r = false).
  Proof.
    intros n x a s (_ & _ & HA). unfold mFinish.
    eapply (halts_bind _ _ _ _ (fun r => stays (inner n) s (fst r))).
    - destruct (x_after x) as [af|]; [|apply halts_ok; apply stays_refl].
      destruct (HA af eq_refl) as [H1 H2].
      eapply halts_bind; [apply (after_halts (inner n)); auto|]. intros [sa e] [B1 B2]. cbn [fst snd] in *.
      eapply (halts_bind _ _ (fun _ => isResolved (ms_data sa) 0) _ (fun _ => True)).
      { apply halts_const; [apply isResolved_fuel|auto]. }
      intros d _. apply halts_ok. exact B1.
    - intros [sa ret] B. cbn [fst] in B. destruct ret; [apply halts_ok; auto|].
      eapply (halts_bind _ _ (fun _ => storeSlot x a sa) _ (fun r => storeSlot x a sa = Ok r)).
      { apply halts_const; [apply store_halts|auto]. }
      intros s2 H. apply store_stays in H as [S1 S2]. apply halts_ok. split; cbn; auto.
      eapply stays_trans; [exact B|]. split; auto.
  Qed.
  Lemma ops_halts : forall n x a lit s, nodeOk n x -> halts (fun f => mOps E f x a lit s) (fun r => stays (inner n) s (fst r) /\ snd r = false).
  Proof.
    intros n x a lit s Hx. unfold mOps.
    eapply (halts_bind _ _ (fun _ => runOps E (x_ops x) (Some lit) s) _ (fun r => runOps E (x_ops x) (Some lit) s = Ok r)).
    { apply halts_const; [apply runOps_halts|auto]. }
    intros [sa ret] H. apply runOps_stays in H as (A & B & C).
    assert (stays (inner n) s sa) as HS by (split; auto).
    destruct ret; [apply halts_ok; split; auto|].
    eapply halts_mono; [apply (finish_halts n); auto|]. intros r [R1 R2]. split; auto. eapply stays_trans; eauto.
  Qed.

  Lemma exec_halts : forall n, HExec n.
  Proof.
    assert (forall m n, length (me_heap E) - n < m -> HExec n) as X.
    { induction m as [|m IH]; intros n Hm; [lia|]. intros t a s.
      apply halts_S. eapply halts_ext; [intro; apply matchExec_S|]. cbv beta.
      unfold idx. destruct (nth_error (me_heap E) n) as [x|] eqn:En; [|apply halts_panic]. cbn [obind].
      assert (n < length (me_heap E)) as Hn by (apply nth_error_Some; congruence).
      destruct (HH _ _ En) as (HE & HL & HA).
      assert (forall ls, Forall (fun l => n < lp_node l /\ inner (lp_node l) = true /\ lp_bucket l <> 0) ls -> Forall loopOk ls) as LK.
      { intros ls HF. induction HF as [|l r (F1 & F2 & F3) Hr IHr]; constructor; auto. split; auto. apply IH. lia. }
      assert (nodeOk n x) as HX.
      { split; [|split].
        - intros k c Hk. assert (exists k', In (k', c) (x_elems x)) as [k' Hin].
          { clear - Hk. induction (x_elems x) as [|[k0 c0] r IHr]; cbn [lookup] in Hk; [discriminate|].
            destruct (bytes_eqb k k0); [injection Hk as ->; exists k0; now left|].
            destruct (IHr Hk) as [k' ?]. exists k'. now right. }
          rewrite Forall_forall in HE. destruct (HE _ Hin) as [H1 H2]. cbn [snd] in *. split; auto. apply IH. lia.
        - auto.
        - intros af Ea. destruct (HA af Ea) as [H1 H2]. auto. }
      assert (forall k c, lookup k (x_elems x) = Some c -> HExec c /\ inner c = inner n) as HC by apply HX.
      destruct (isLiteralToken t) eqn:El.
      { eapply (halts_bind _ _ (fun _ => parseLit (me_o E) t (slice (me_doc E) a (ms_pos s))) _ (fun _ => True)).
        { apply halts_const; [apply parseLit_fuel|auto]. }
        intros lit _. eapply halts_mono; [apply (ops_halts n); auto|]. intros [s' e] [R1 R2]. cbn [fst snd] in *.
        split; [now apply stays_ahead|]. split; [congruence|]. intros ->. discriminate. }
      assert (forall p lit s', ahead (inner n) s s' -> t <> TEnd ->
        halts (fun f => do b <- goSlice (me_doc E) p (ms_pos s'); mOps E f x a (lit b) s')
          (fun r => ahead (inner n) s (fst r) /\ (snd r = true -> stuck (fst r)) /\ t <> TEnd)) as KO.
      { intros p lit s' As Ht.
        eapply (halts_bind _ _ (fun _ => goSlice (me_doc E) p (ms_pos s')) _ (fun _ => True)).
        { apply halts_const; [apply goSlice_fuel|auto]. }
        intros b _. eapply halts_mono; [apply (ops_halts n); auto|]. intros [s2 e] [R1 R2]. cbn [fst snd] in *.
        split; [eapply ahead_stays; eauto|]. split; [congruence|auto]. }
      assert (forall t, halts (fun f => matchOA f E t x true 0 s) (after3 (inner n) s)) as KA.
      { intros. apply (oa_halts x (inner n) HC (S (length (me_doc E)))). lia. }
      destruct t; try apply halts_panic.
      - eapply (halts_bind _ _ _ _ (fun r => ahead (inner n) s (fst r) /\ (snd r = Some true -> stuck (fst r)))).
        + destruct (x_elems x) as [|e0 es].
          { eapply (halts_bind _ _ (fun _ => skipValue E TObjectStart s) _ (fun r => skipValue E TObjectStart s = Ok r)).
            { apply halts_const; [apply skip_halts|auto]. }
            intros [s3 e] Hs. apply skip_ahead in Hs as (A & B & C). apply halts_ok. split; cbn; [now apply ahead_pos|discriminate]. }
          eapply halts_bind; [apply KA|]. intros [[sa err] ret] [A1 A2]. cbn [fst snd] in *.
          eapply (halts_bind _ _ _ _ (fun r => ahead (inner n) s (fst r) /\ (err = true -> stuck (fst r)))).
          { destruct err; [apply halts_ok; cbn; auto|]. destruct (x_after x) as [af|] eqn:Eaf.
            - destruct HX as (_ & _ & HXA). destruct (HXA af Eaf) as [B1 B2].
              eapply halts_mono; [apply (after_halts (inner n)); auto|]. intros [s2 e] [C1 C2]. cbn [fst snd] in *.
              split; [eapply ahead_stays; eauto|discriminate].
            - apply halts_ok. cbn. auto. }
          intros [s2 e2] [B1 B2]. cbn [fst snd] in *. destruct ret.
          { apply halts_ok. cbn. split; auto. intro X. apply B2. congruence. }
          eapply (halts_bind _ _ (fun _ => isResolved (ms_data s2) 0) _ (fun _ => True)).
          { apply halts_const; [apply isResolved_fuel|auto]. }
          intros d _. apply halts_ok. cbn. split; auto. destruct d; discriminate.
        + intros [sa [err|]] [A1 A2]; cbn [fst snd] in *.
          * apply halts_ok. cbn. split; auto. split; [intros ->; auto|discriminate].
          * apply (KO _ (fun b => plain (VObject b))); auto. discriminate.
      - eapply (halts_bind _ _ _ _ (fun r => ahead (inner n) s (fst r) /\ (snd r = Some true -> stuck (fst r)))).
        + destruct (x_loops x) as [|l0 ls] eqn:Els.
          { eapply halts_bind; [apply KA|]. intros [[sa err] ret] [A1 A2]. cbn [fst snd] in *.
            apply halts_ok. cbn. split; auto. destruct ret; [|discriminate]. intro X. apply A2. congruence. }
          rewrite <- Els. eapply halts_mono.
          * apply (loops_halts TArrayStart (x_loops x)) with (s := s); [rewrite Els; auto|auto|discriminate|auto].
          * intros [s' e] [A1 A2]. cbn [fst snd] in *. split; [now apply ahead_out|auto].
        + intros [sa [err|]] [A1 A2]; cbn [fst snd] in *.
          * apply halts_ok. cbn. split; auto. split; [intros ->; auto|discriminate].
          * apply (KO _ (fun b => plain (VArray b))); auto. discriminate. }
    intro n. apply (X (S (length (me_heap E)))). lia.
  Qed.
End Halt.

(** Matching halts for every definition whose heap and tree are in order. *)
Theorem match_halts : forall o D doc s inner, treeOk (d_tree D) ->
  (forall h, d_heap D = Some h -> heapOk h inner) ->
  halts (fun f => match_ f o D doc s) (fun _ => True).
Proof.
  intros o D doc s inner HT HH. unfold match_. destruct doc as [|c doc]; [now apply halts_ok|].
  destruct (step (c :: doc) 0) as [t a b|]; [|now apply halts_ok].
  destruct (d_heap D) as [h|] eqn:Eh; [|apply halts_panic].
  eapply halts_bind.
  - apply (exec_halts (MEnv o h (d_tree D) (c :: doc)) inner); auto.
  - intros [sa err] _. destruct err; [now apply halts_ok|].
    eapply (halts_bind _ _ (fun _ => resolveAll (d_tree D) (ms_stall sa) (ms_data sa)) _ (fun _ => True)).
    { apply halts_const; [now apply resolveAll_fuel|auto]. }
    intros d _. eapply (halts_bind _ _ (fun _ => isTrue d 0) _ (fun _ => True)).
    { apply halts_const; [apply isTrue_fuel|auto]. }
    intros r _. now apply halts_ok.
Qed.
