(** Parsing a simple filter ends: with the tree having no cycles, so does the output. *)
From Coq Require Import String.
From Verif Require Import Base MTokenizer MLit MFastVal MMath MBinTree SEvents MExpr MExprJson MText MSimple PSimpleFuel PSimpleTerm PSimpleTree.
From Coq Require Import List NArith ZArith Arith Lia Bool.
Import ListNotations.
Open Scope nat_scope.

Section Ends.
  Variable o : oracles.
  Lemma outValue_total : forall s, outValue o s <> OutOfFuel.
  Proof.
    intros s. unfold outValue. destruct (isNum s); [|discriminate]. destruct (isIntText s); [destruct (_ && _)%bool; discriminate|]. destruct (o_parseFloat o s) as [f ok]. destruct ok; discriminate.
  Qed.
  Lemma outFunc_total : forall c, funcsOk (c_funcs c) -> forall i h, lookupN i (c_funcs c) = Some h -> exists f, outFunc o f h (h_lvl h) <> OutOfFuel.
  Proof.
    intros c HF i h H. unfold lookupN in H. destruct (find _ (c_funcs c)) as [[k h']|] eqn:E; [|discriminate]. injection H as ->.
    apply find_some in E as [E _]. unfold funcsOk in HF. rewrite Forall_forall in HF. specialize (HF _ E). cbn [snd] in HF.
    exists (S (S (length (h_args h)))). apply outFunc_ends; [exact HF|]. lia.
  Qed.
  Lemma outNode_ends : forall c, funcsOk (c_funcs c) -> forall i, Acc (child (c_tree c)) i -> exists f, outNode o f c i <> OutOfFuel.
  Proof.
    intros c HF i A. induction A as [i _ IH]. destruct (nth_error (c_tree c) i) as [n|] eqn:EN; [|exists 1; cbn [outNode]; rewrite EN; discriminate].
    assert (forall s, (s = pn_left n \/ s = pn_right n) -> exists F, forall f, F <= f -> match s with Some j => outNode o f c j <> OutOfFuel | None => True end) as HS.
    { intros s Hs. destruct s as [j|]; [|now exists 0]. destruct (IH j) as [F H]; [exists n; split; [exact EN|destruct Hs; auto]|]. exists F. intros f Hf.
      pose proof (outNode_mono o c j F f Hf H) as M. cbv beta in M. rewrite M. exact H. }
    destruct (HS (pn_left n) (or_introl eq_refl)) as [FL HL]. destruct (HS (pn_right n) (or_intror eq_refl)) as [FR HR].
    assert (exists FF, forall h, lookupN i (c_funcs c) = Some h -> forall f, FF <= f -> outFunc o f h (h_lvl h) <> OutOfFuel) as [FF HH].
    { destruct (lookupN i (c_funcs c)) as [h|] eqn:E; [|exists 0; discriminate]. destruct (outFunc_total c HF i h E) as [F H]. exists F. intros h' [= <-] f Hf.
      pose proof (outFunc_mono o h (h_lvl h) F f Hf H) as M. cbv beta in M. rewrite M. exact H. }
    exists (S (FL + FR + FF)). cbn [outNode]. rewrite EN. specialize (HL (FL + FR + FF) ltac:(lia)). specialize (HR (FL + FR + FF) ltac:(lia)).
    destruct (pn_type n) eqn:ET; try discriminate; try apply outValue_total.
    all: match type of ET with
      | _ = TkFunc => destruct (lookupN i (c_funcs c)) as [h|]; [|discriminate]; apply (HH h eq_refl); lia
      | _ = TkField => destruct (lookupN i (c_paths c)); discriminate
      | _ => idtac
      end.
    - destruct (pn_left n) as [l|]; cbn [obind].
      + destruct (outNode o (FL + FR + FF) c l) as [a| | |] eqn:E1; try (exfalso; now apply HL);
        (destruct (pn_right n) as [r|]; [destruct (outNode o (FL + FR + FF) c r) as [b| | |] eqn:E2; try (exfalso; now apply HR)|]); cbn [obind];
        destruct (cmpOp (pn_data n)); try discriminate;
        repeat match goal with |- context [if ?b then _ else _] => destruct b; try discriminate end.
      + destruct (cmpOp (pn_data n)); try discriminate; repeat match goal with |- context [if ?b then _ else _] => destruct b; try discriminate end.
  Qed.

  Lemma fieldsFrom_in : forall b s skip cur, ~ In b s -> ~ In b cur -> lacks b (fieldsFrom skip cur s).
  Proof.
    intros b s. induction s as [|x s IH]; intros skip cur Hs Hc; cbn [fieldsFrom].
    - destruct cur; [constructor|constructor; [exact Hc|constructor]].
    - assert (~ In b s) as Hs' by (intros K; apply Hs; now right). destruct skip as [|k]; [|auto]. destruct (spaceWidth (x :: s)) as [|k].
      + apply IH; auto. rewrite in_app_iff. intros [K|[K|[]]]; auto. apply Hs. now left.
      + destruct cur; [apply IH; auto|]. constructor; auto. apply IH; auto.
  Qed.
  Lemma grown_start : forall toks, grown 0 (startCtx toks).
  Proof.
    intros toks. split; cbn; auto.
    - intros i j _ HJ. apply child_range in HJ. cbn in HJ. lia.
    - intros i _. apply acc_out. cbn. lia.
  Qed.
  Theorem parseSimple_ends : forall text, (~ In 34%N text /\ ~ In 39%N text) \/ ~ In 40%N text \/ ~ In 41%N text -> exists f, parseSimple o f text <> OutOfFuel.
  Proof.
    intros text H. assert (safe (startCtx (fields text))) as HS.
    { unfold safe, fields. destruct H as [[H1 H2]|[H|H]]; [left; split|right; left; split; [|reflexivity]|right; right]; apply fieldsFrom_in; auto. }
    destruct (parse_ends o (S (measure (startCtx (fields text)))) _ HS (Nat.lt_succ_diag_r _)) as [f1 H1].
    destruct (parse o f1 (startCtx (fields text))) as [[c e]| | |] eqn:E; [| | |congruence].
    2,3: exists f1; unfold parseSimple; rewrite E; discriminate.
    destruct e; try (exists f1; unfold parseSimple; rewrite E; discriminate).
    destruct (parse_grown o _ _ _ _ 0 E (or_introl eq_refl) (grown_start _)) as [G _].
    destruct (parse_keeps o _ _ _ _ E) as [_ K]. destruct (K I (Forall_nil _)) as [_ KF].
    assert (exists f2, outputSimple o f2 c <> OutOfFuel) as [f2 H2].
    { unfold outputSimple. destruct (c_head c) as [h|]; [|exists 0; discriminate]. destruct (nth_error (c_tree c) h) as [n|]; [|exists 0; discriminate].
      destruct (outNode_ends c KF h (g_acc _ _ G h (Nat.le_0_l h))) as [f2 H2]. exists f2. destruct (pn_type n); try discriminate. exact H2. }
    exists (f1 + f2). unfold parseSimple. rewrite (parse_mono o _ f1 (f1 + f2)) by (try lia; rewrite E; discriminate). rewrite E. cbn [obind].
    assert (outputSimple o (f1 + f2) c = outputSimple o f2 c) as ->; [|exact H2]. unfold outputSimple in *.
    destruct (c_head c) as [h|]; auto. destruct (nth_error (c_tree c) h) as [n|]; auto. destruct (pn_type n); auto. apply (outNode_mono o c h); [lia|exact H2].
  Qed.
End Ends.
