(** Calm filters never touch the shared buffer. *)
From Coq Require Import String.
From Verif Require Import Base MTokenizer MLit MFastVal MMath SEvents MBinTree MSession MExpr MTransform MMatcher MShared SShared PCompile PExpr PTerm PShared.
From Coq Require Import List NArith ZArith Arith Lia Bool.
Import ListNotations.
Open Scope nat_scope.

(** A constant text, as a value at run time. *)
Definition soft (v : fastval) : bool := userDefined v && isString (fv v).

Lemma internal_done : forall o v w, isString (fv v) = false -> compareInternalP o v w = Done (Ok (compareInternal o v w)).
Proof. intros o v w H. unfold compareInternalP. destruct (fv v) eqn:E; try reflexivity; discriminate. Qed.
Lemma reverse_done : forall o v w, isString (fv w) = false -> reverseCompareP o v w = Done (Ok (reverseCompare o v w)).
Proof. intros o v w H. unfold reverseCompareP, reverseCompare. rewrite internal_done by auto. cbn [bindP]. now destruct (compareInternal o w v). Qed.
Lemma numeric_notString : forall v, isNumeric v = true -> isString v = false.
Proof. intros v H. destruct v; try reflexivity; discriminate. Qed.
Lemma compare_done : forall o v w, soft v = false -> soft w = false -> userDefined v || userDefined w = true -> compareP o v w = Done (Ok (compare o v w)).
Proof.
  intros o v w Hv Hw HU. unfold compareP, compare. rewrite HU. unfold compareUserDefinedP, compareUserDefined, soft in *.
  destruct (isNumeric (fv v) && isNumeric (fv w)) eqn:EN; [apply andb_true_iff in EN as [E1 E2]; apply numeric_notString in E1, E2|].
  - destruct (userDefined v); [destruct (negb _)|destruct (negb _)]; auto using internal_done, reverse_done.
  - destruct (userDefined v); cbn [andb orb] in *.
    + destruct (negb _); auto using internal_done.
    + rewrite HU in Hw. cbn [andb] in Hw. destruct (negb _); auto using reverse_done.
Qed.
Lemma applyOp_done : forall o op l r, (op <> OpExists -> op <> OpMatches -> soft l = false /\ soft r = false /\ userDefined l || userDefined r = true) ->
  applyOpP o op l r = Done (Ok (applyOp o op l r)).
Proof.
  intros o op l r H. destruct op; cbn [applyOpP applyOp]; try reflexivity; (destruct H as (H1 & H2 & H3); [discriminate|discriminate|]); rewrite compare_done by auto;
    cbn [bindP]; unfold equals; now destruct (compare o l r).
Qed.

(** Functions never give a constant text. *)
Definition hard1 (f : oracles -> fastval -> outcome fastval) : Prop := forall o a r, f o a = Ok r -> soft r = false.
Definition hard2 (f : oracles -> fastval -> fastval -> outcome fastval) : Prop := forall o a b r, f o a b = Ok r -> soft r = false.
Lemma g2i_hard : forall o v w op r, generic2Ints o v w op = Ok r -> soft r = false.
Proof.
  intros o v w op r H. unfold generic2Ints in H. destruct (asInt o (fv v)), (asInt o (fv w)). destruct (_ || _); [now injection H as <-|].
  destruct (op _ _); [now injection H as <-|discriminate].
Qed.
Lemma g2u_hard : forall o v w op r, generic2Uints o v w op = Ok r -> soft r = false.
Proof.
  intros o v w op r H. unfold generic2Uints in H. destruct (asUint o (fv v)), (asUint o (fv w)). destruct (_ || _); [now injection H as <-|].
  destruct (op _ _); [now injection H as <-|discriminate].
Qed.
Lemma g2f_hard : forall o v w op r, generic2Floats o v w op = Ok r -> soft r = false.
Proof. intros o v w op r H. unfold generic2Floats in H. destruct (asFloat o (fv v)), (asFloat o (fv w)). destruct (_ || _); now injection H as <-. Qed.
Lemma gi_hard : forall o v op r, genericInt o v op = Ok r -> soft r = false.
Proof. intros o v op r H. unfold genericInt in H. destruct (asInt o (fv v)). destruct (_ && _); now injection H as <-. Qed.
Lemma gf_hard : forall o v op r, genericFloat o v op = Ok r -> soft r = false.
Proof. intros o v op r H. unfold genericFloat in H. destruct (asFloat o (fv v)). destruct (_ && _); now injection H as <-. Qed.
Ltac hardTac H :=
  repeat first
  [ exact (g2i_hard _ _ _ _ _ H) | exact (g2u_hard _ _ _ _ _ H) | exact (g2f_hard _ _ _ _ _ H) | exact (gi_hard _ _ _ _ H) | exact (gf_hard _ _ _ _ H)
  | match type of H with Ok _ = Ok _ => injection H as <-; reflexivity end
  | match type of H with (match ?x with _ => _ end) = Ok _ => destruct x eqn:? end ].
Lemma addMult_hard : forall o v w i u f r, addMultShared o v w i u f = Ok r -> soft r = false.
Proof. intros o v w i u f r H. unfold addMultShared in H. hardTac H. Qed.
Lemma uint_notString : forall v, isUInt v = true -> isString v = false.
Proof. intros v H. destruct v; try reflexivity; discriminate. Qed.
Lemma int_notString : forall v, isInt v = true -> isString v = false.
Proof. intros v H. destruct v; try reflexivity; discriminate. Qed.
Lemma notString_hard : forall v, isString (fv v) = false -> soft v = false.
Proof. intros v H. unfold soft. rewrite H. apply andb_false_r. Qed.
Lemma plain_hard : forall v, soft (plain v) = false.
Proof. reflexivity. Qed.
Lemma funTable_hard : Forall (fun nf => match snd nf with Fn1 f => hard1 f | Fn2 f => hard2 f end) funTable.
Proof.
  unfold funTable. repeat (apply Forall_cons || apply Forall_nil); cbn [snd]; unfold hard1, hard2; intros;
    match goal with H : _ = Ok _ |- _ => try exact (gf_hard _ _ _ _ H); try exact (g2f_hard _ _ _ _ _ H); try exact (addMult_hard _ _ _ _ _ _ _ H) end.
  - unfold mathAbs in H. destruct (isUInt (fv a)) eqn:E; [injection H as <-; now apply notString_hard, uint_notString|hardTac H].
  - unfold mathRound in H. destruct (isFloat (fv a)); [destruct (asFloat o (fv a)) as [f []]; injection H as <-; reflexivity|].
    destruct (isInt (fv a) || isUInt (fv a)) eqn:E; injection H as <-; [|reflexivity]. apply orb_true_iff in E as [E|E]; auto using notString_hard, uint_notString, int_notString.
  - injection H as <-. reflexivity.
  - unfold mathSub in H. hardTac H.
  - unfold mathDiv in H. hardTac H.
  - unfold mathMod in H. hardTac H.
  - unfold mathNeg in H. hardTac H.
Qed.
Lemma funLookup_in : forall name l f, funLookup name l = Some f -> exists n, In (n, f) l.
Proof.
  intros name l f. induction l as [|[n g] l IH]; intro H; cbn [funLookup] in H; [discriminate|].
  destruct (bytes_eqb name n); [injection H as <-; exists n; now left|]. destruct (IH H) as [m Hm]. exists m. now right.
Qed.
Lemma funLookup_hard : forall name f, funLookup name funTable = Some f -> match f with Fn1 f => hard1 f | Fn2 f => hard2 f end.
Proof. intros name f H. apply funLookup_in in H as [n H]. exact (proj1 (Forall_forall _ _) funTable_hard _ H). Qed.

(** Operands: what they are compiled from decides. *)
Definition softRef (d : option dref) : bool := match d with Some (DVal v) => soft v | _ => false end.
Definition constRefB (d : option dref) : bool := match d with Some (DVal v) => userDefined v | _ => false end.
Lemma operand_hard : forall o sv d lit v m, (forall s w, sv s = Ok w -> soft w = false) -> (forall w, lit = Some w -> soft w = false) ->
  softRef d = false -> MMatcher.operand o sv d lit = Ok (v, m) -> soft v = false /\ (constRefB d = true -> userDefined v = true).
Proof.
  intros o sv d lit v m Hs Hl Hd H. unfold MMatcher.operand in H. destruct d as [d|].
  - bind H w. injection H as <- <-. destruct d as [|s|name ps|w0]; cbn [resolveParam] in E.
    + destruct lit; [|discriminate]. injection E as <-. split; [auto|discriminate].
    + split; [eauto|discriminate].
    + split; [|discriminate]. destruct (funLookup name funTable) as [f|] eqn:Ef; [|discriminate]. apply funLookup_hard in Ef.
      destruct f as [f|f]; destruct ps as [|p1 ps]; try discriminate; bind E x; [eauto|].
      destruct ps as [|p2 ps]; [discriminate|]. bind E y. eauto.
    + injection E as <-. auto.
  - injection H as <- <-. split; [|discriminate]. destruct lit; auto.
Qed.
Definition calmOp (op : opnode) : bool :=
  match op_op op with
  | OpExists | OpMatches => true
  | _ => (constRefB (op_lhs op) || constRefB (op_rhs op)) && negb (softRef (op_lhs op)) && negb (softRef (op_rhs op))
  end.
Lemma opResult_done : forall o sv op lit, (forall s w, sv s = Ok w -> soft w = false) -> (forall w, lit = Some w -> soft w = false) -> calmOp op = true ->
  opResultP o sv op lit = Done (opResult o sv op lit).
Proof.
  intros o sv op lit Hs Hl HC. unfold opResultP, opResult. cbn [bindP]. destruct (MMatcher.operand o sv (op_lhs op) lit) as [[l m1]| | |] eqn:E1; cbn [obind]; try reflexivity.
  cbn [bindP]. destruct (MMatcher.operand o sv (op_rhs op) lit) as [[r m2]| | |] eqn:E2; cbn [obind]; try reflexivity. destruct (m1 || m2); [reflexivity|].
  rewrite applyOp_done; [cbn [bindP]; now destruct (applyOp o (op_op op) l r)|]. intros N1 N2.
  assert ((constRefB (op_lhs op) || constRefB (op_rhs op)) && negb (softRef (op_lhs op)) && negb (softRef (op_rhs op)) = true) as HC' by (unfold calmOp in HC; destruct (op_op op); congruence).
  apply andb_true_iff in HC' as [HC' S2]. apply andb_true_iff in HC' as [HU S1]. apply negb_true_iff in S1, S2.
  destruct (operand_hard _ _ _ _ _ _ Hs Hl S1 E1) as [A1 A2]. destruct (operand_hard _ _ _ _ _ _ Hs Hl S2 E2) as [B1 B2].
  repeat split; auto. apply orb_true_iff in HU as [HU|HU]; apply orb_true_iff; auto.
Qed.
Lemma parseLit_hard : forall o t l v, parseLit o t l = Ok v -> soft v = false.
Proof. intros o t l v H. unfold parseLit in H. destruct t; try discriminate; try (injection H as <-; reflexivity). destruct (parseEscString _ _) as [[[b ?] ?]| | |]; try discriminate. now injection H as <-. Qed.
Lemma slot_hard : forall E slots s w, literalFromSlot E slots s = Ok w -> soft w = false.
Proof.
  intros E slots s w H. unfold literalFromSlot in H. destruct s as [|i]; [discriminate|]. bind H q. destruct q as [st sz]. destruct (step (me_doc E) st) as [t a b|]; [|now injection H as <-].
  destruct (isLiteralToken t); [eapply parseLit_hard; eauto|]. destruct (Nat.ltb 0 sz); [|now injection H as <-].
  destruct t; try (now injection H as <-); bind H x; now injection H as <-.
Qed.
Lemma matchOp_done : forall E op lit s, (forall w, lit = Some w -> soft w = false) -> calmOp op = true -> matchOpP E op lit s = Done (matchOp E op lit s).
Proof.
  intros E op lit s Hl HC. unfold matchOpP, matchOp. cbn [bindP]. destruct (isResolved (ms_data s) (op_bucket op)) as [[]| | |]; cbn [obind]; try reflexivity.
  rewrite opResult_done by (auto; apply slot_hard). cbn [bindP]. destruct (opResult _ _ op lit) as [[res c]| | |]; cbn [obind]; try reflexivity. destruct (mark _ _ _ _ _); reflexivity.
Qed.
Lemma runOps_done : forall E ops lit s, (forall w, lit = Some w -> soft w = false) -> forallb calmOp ops = true -> runOpsP E ops lit s = Done (runOps E ops lit s).
Proof.
  intros E ops lit s Hl. revert s. induction ops as [|op r IH]; intros s HC; [reflexivity|]. cbn [forallb] in HC. apply andb_true_iff in HC as [C1 C2].
  cbn [runOpsP runOps]. rewrite matchOp_done by auto. cbn [bindP]. destruct (matchOp E op lit s) as [sa| | |]; cbn [obind]; try reflexivity.
  destruct (isResolved (ms_data sa) 0) as [[]| | |]; cbn [obind]; try reflexivity. auto.
Qed.

Definition calmNode (x : execnode) : bool := forallb calmOp (x_ops x) && match x_after x with None => true | Some af => forallb calmOp (af_ops af) end.
Definition calmHeap (h : list execnode) : Prop := Forall (fun x => calmNode x = true) h.
Lemma calmHeap_nth : forall h n x, calmHeap h -> nth_error h n = Some x -> calmNode x = true.
Proof. intros h n x HH E. eapply Forall_forall in HH; [exact HH|]. eapply nth_error_In; exact E. Qed.
Lemma bindP_done : forall (A B : Type) p (x : outcome A) (k : A -> prog B) (k' : A -> outcome B), p = Done x -> (forall a, x = Ok a -> k a = Done (k' a)) -> bindP p k = Done (obind x k').
Proof. intros A B p x k k' -> H. destruct x; cbn; auto. Qed.
Lemma exec_done : forall fuel E, calmHeap (me_heap E) ->
  (forall t a n s, matchExecP fuel E t a n s = Done (matchExec fuel E t a n s))
  /\ (forall t ls save first s, matchLoopsP fuel E t ls save first s = Done (matchLoops fuel E t ls save first s))
  /\ (forall t x first i s, calmNode x = true -> matchOAP fuel E t x first i s = Done (matchOA fuel E t x first i s))
  /\ (forall t l s, matchLoopP fuel E t l s = Done (matchLoop fuel E t l s))
  /\ (forall l first st s, matchItersP fuel E l first st s = Done (matchIters fuel E l first st s))
  /\ (forall af s, forallb calmOp (af_ops af) = true -> matchAfterP fuel E af s = Done (matchAfter fuel E af s))
  /\ (forall ls s, afterLoopsP fuel E ls s = Done (afterLoops fuel E ls s)).
Proof.
  induction fuel as [|f IH]; intros E HH; [repeat split; reflexivity|]. destruct (IH E HH) as (H1 & H2 & H3 & H4 & H5 & H6 & H7).
  Ltac quiet H1 H2 H3 H4 H5 H6 H7 :=
    repeat first
      [ reflexivity
      | apply H1 | apply H2 | apply H3; assumption | apply H4 | apply H5 | apply H6; assumption | apply H7
      | apply runOps_done; (assumption || (intros w Ew; discriminate))
      | apply bindP_done; [|intros]
      | match goal with |- context [match ?x with _ => _ end] => destruct x end ].
  repeat split; intros; cbn [matchExecP matchLoopsP matchOAP matchLoopP matchItersP matchAfterP afterLoopsP matchExec matchLoops matchOA matchLoop matchIters matchAfter afterLoops]; cbv zeta.
  2-7: solve [quiet H1 H2 H3 H4 H5 H6 H7].
  apply bindP_done; [reflexivity|]. intros x Ex. apply idx_inv in Ex. assert (calmNode x = true) as HX by (eapply calmHeap_nth; [exact HH|exact Ex]).
  pose proof HX as HX'. unfold calmNode in HX'. apply andb_true_iff in HX' as [HO HA].
  assert (forall af s, x_after x = Some af -> matchAfterP f E af s = Done (matchAfter f E af s)) as H6' by (intros af s0 Ea; rewrite Ea in HA; auto).
  Ltac loud H1 H2 H3 H6 :=
    repeat first
      [ reflexivity
      | apply H1 | apply H2 | apply H3; assumption
      | apply H6; (assumption || reflexivity)
      | apply runOps_done; [let w := fresh "w" in let Ew := fresh "Ew" in intros w Ew; injection Ew as <-; (reflexivity || eapply parseLit_hard; eassumption)|assumption]
      | apply bindP_done; [|intros]
      | match goal with |- context [match ?x with _ => _ end] => destruct x eqn:? end ].
  destruct (isLiteralToken t); loud H1 H2 H3 H6'.
Qed.
Lemma match_done : forall fuel o D doc s, (forall h, d_heap D = Some h -> calmHeap h) -> matchP fuel o D doc s = Done (match_ fuel o D doc s).
Proof.
  intros fuel o D doc s H. unfold matchP, match_. destruct doc as [|c doc]; [reflexivity|]. cbv zeta.
  destruct (step (c :: doc) 0) as [t a b|]; [|reflexivity]. destruct (d_heap D) as [h|]; [|reflexivity]. specialize (H h eq_refl).
  apply bindP_done; [apply (exec_done fuel (MEnv o h (d_tree D) (c :: doc)) H)|]. intros [sa []] _; [reflexivity|]. apply bindP_done; [reflexivity|]. intros d _. apply bindP_done; [reflexivity|]. reflexivity.
Qed.

(** ** The compiled form of a calm filter *)
Lemma calmHeap_upd : forall h n x, calmHeap h -> calmNode x = true -> calmHeap (upd h n x).
Proof.
  intros h. induction h as [|y h IH]; intros [|n] x HH Hx; cbn [upd]; auto; inversion HH; subst; constructor; auto. now apply IH.
Qed.
Lemma calmHeap_app : forall h, calmHeap h -> calmHeap (h ++ [emptyExec]).
Proof. intros h HH. apply Forall_app. split; [exact HH|]. constructor; [reflexivity|constructor]. Qed.
Lemma walk_calm : forall path h n h' n', calmHeap h -> walk h n path = Ok (h', n') -> calmHeap h'.
Proof.
  induction path as [|k path IH]; intros h n h' n' HH H; cbn [walk] in H; [now injection H as <- <-|]. bind H x. apply idx_inv in E.
  destruct (lookup k (x_elems x)); [eauto|]. eapply IH; [|exact H]. apply calmHeap_app, calmHeap_upd; auto. exact (calmHeap_nth _ _ _ HH E).
Qed.
Lemma getExec_calm : forall t r t' n, calmHeap (t_heap t) -> getExecNode t r = Ok (t', n) -> calmHeap (t_heap t').
Proof. intros t r t' n HH H. unfold getExecNode in H. bind H q. destruct q as [h n']. injection H as <- <-. cbn. eapply walk_calm; eauto. Qed.
Lemma store_calm : forall t n t' s, calmHeap (t_heap t) -> storeExecNode t n = Ok (t', s) -> calmHeap (t_heap t').
Proof.
  intros t n t' s HH H. unfold storeExecNode in H. bind H x. apply idx_inv in E. destruct (Nat.eqb (x_store x) 0); injection H as <- <-; [|auto].
  cbn [t_heap]. apply calmHeap_upd; auto. exact (calmHeap_nth _ _ _ HH E).
Qed.
Lemma after_calm : forall t n t', calmHeap (t_heap t) -> getAfterNode t n = Ok t' -> calmHeap (t_heap t').
Proof.
  intros t n t' HH H. unfold getAfterNode in H. bind H x. apply idx_inv in E. destruct (x_after x) eqn:Ea; injection H as <-; [auto|].
  cbn [t_heap setHeap]. apply calmHeap_upd; auto. pose proof (calmHeap_nth _ _ _ HH E) as C. unfold calmNode in *. cbn [setAfter x_ops x_after af_ops forallb]. now rewrite Ea in C.
Qed.
Lemma pick_calm : forall t e t' b, calmHeap (t_heap t) -> pickBaseNode t e = Ok (t', b) -> calmHeap (t_heap t').
Proof.
  intros t e t' b HH H. unfold pickBaseNode in H. bind H fs. bind H refs. bind H q. destruct q as [best na]. bind H q. destruct q as [t1 n].
  apply getExec_calm in E2; [|auto]. destruct na; [bind H t2; injection H as <- <-; eapply after_calm; eauto|now injection H as <- <-].
Qed.
Lemma dataRefIn_calm : forall o e b t t' d, calmHeap (t_heap t) -> dataRefIn o e b t = Ok (t', d) -> calmHeap (t_heap t').
Proof.
  intros o e. induction e as [| |g|sa|sa|sa|a IH|l IH|l IH|r p|n l IH|m v i s IHi IHs|a IH|a IH|k l r IHl IHr] using expr_ind'; intros b t t' d HH H;
    try (cbn [dataRefIn] in H; bind H c; now injection H as <- <-).
  - cbn [dataRefIn] in H. bind H rr. bind H q. destruct q as [t1 n]. apply getExec_calm in E0; [|auto].
    destruct (isBase b n); [now injection H as <- <-|]. bind H q. destruct q as [t2 s]. injection H as <- <-. eapply store_calm; eauto.
  - cbn [dataRefIn] in H. bind H q. destruct q as [t1 ps]. injection H as <- <-.
    revert t t1 ps HH E. induction IH as [|x l Hx Hl IHl]; intros t t1 ps HH E; [now injection E as <- <-|]. bind E q. destruct q as [t2 p]. bind E q. destruct q as [t3 ps3].
    injection E as <- <-. eapply IHl; [|exact E1]. eapply Hx; [exact HH|exact E0].
Qed.
Lemma const_hard : forall o e v, constantText e = false -> constRef o e = Ok v -> soft v = false /\ userDefined v = true.
Proof.
  intros o e v Ht H. destruct e; cbn [constRef] in H; try discriminate.
  - injection H as <-. split; [|reflexivity]. destruct v0; try discriminate; try reflexivity. now destruct b.
  - destruct (getNewTime o s); [now injection H as <-|discriminate].
  - destruct (o_regexCompiles o s); [now injection H as <-|discriminate].
  - destruct (o_pcreCompiles o s); [now injection H as <-|discriminate].
Qed.
Lemma makeRef_calm : forall o e b t t' d, calmHeap (t_heap t) -> makeDataRef o e b t = Ok (t', d) ->
  calmHeap (t_heap t') /\ (constantText e = false -> softRef d = false /\ (constant e = true -> constRefB d = true)).
Proof.
  intros o e b t t' d HH H.
  assert (forall x, (forall r p, x <> XField r p) -> (do (t1, d) <- dataRefIn o x b t; Ok (t1, Some d)) = Ok (t', d) ->
    calmHeap (t_heap t') /\ (constantText x = false -> softRef d = false /\ (constant x = true -> constRefB d = true))) as X.
  { intros x Hx H0. bind H0 q. destruct q as [t1 d1]. injection H0 as <- <-. split; [eapply dataRefIn_calm; eauto|]. intro Ht.
    assert (forall v, constRef o x = Ok v -> d1 = DVal v -> softRef (Some d1) = false /\ constRefB (Some d1) = true) as C
      by (intros v Hv ->; apply const_hard in Hv; auto).
    destruct x; try (exfalso; eapply Hx; reflexivity); cbn [dataRefIn] in E; try (bind E v1; injection E as <- <-; destruct (C _ eq_refl eq_refl); auto).
    bind E q. destruct q. injection E as <- <-. split; [reflexivity|discriminate]. }
  destruct e; try (apply X; [discriminate|exact H]). cbn [makeDataRef] in H. bind H rr. bind H q. destruct q as [t1 n]. apply getExec_calm in E0; [|auto].
  destruct (isBase b n); [injection H as <- <-; split; [auto|]; split; [reflexivity|discriminate]|]. bind H q. destruct q as [t2 s]. injection H as <- <-.
  split; [eapply store_calm; eauto|]. split; [reflexivity|discriminate].
Qed.
Lemma addOp_calm : forall t b op t', calmHeap (t_heap t) -> calmOp op = true -> addOp t b op = Ok t' -> calmHeap (t_heap t').
Proof.
  intros t b op t' HH HO H. unfold addOp in H. destruct b as [n|n]; bind H x; apply idx_inv in E; pose proof (calmHeap_nth _ _ _ HH E) as C; unfold calmNode in C; apply andb_true_iff in C as [C1 C2].
  - injection H as <-. cbn [t_heap setHeap]. apply calmHeap_upd; auto. unfold calmNode. cbn [setOps x_ops x_after]. rewrite forallb_app, C1, C2. cbn [forallb]. now rewrite HO.
  - destruct (x_after x) as [af|] eqn:Ea; [|discriminate]. injection H as <-. cbn [t_heap setHeap]. apply calmHeap_upd; auto. unfold calmNode. cbn [setAfter x_ops x_after af_ops].
    rewrite C1, forallb_app, C2. cbn [forallb]. now rewrite HO.
Qed.
Lemma addLoop_calm : forall t b l t', calmHeap (t_heap t) -> addLoop t b l = Ok t' -> calmHeap (t_heap t').
Proof.
  intros t b l t' HH H. unfold addLoop in H. destruct b as [n|n].
  - destruct (lp_target l); [discriminate|]. bind H x. apply idx_inv in E. injection H as <-. cbn [t_heap setHeap]. apply calmHeap_upd; auto. exact (calmHeap_nth _ _ _ HH E).
  - destruct (lp_target l) as [[| | |]|]; try discriminate. bind H x. apply idx_inv in E. pose proof (calmHeap_nth _ _ _ HH E) as C. unfold calmNode in C.
    destruct (x_after x) as [af|] eqn:Ea; [|discriminate]. injection H as <-. cbn [t_heap setHeap]. apply calmHeap_upd; auto.
Qed.
Lemma openLeft_heap : forall ty t t', openLeft ty t = Ok t' -> t_heap t' = t_heap t.
Proof. intros ty t t' H. unfold openLeft in H. bind H T. bind H T1. now injection H as <-. Qed.
Lemma openRight_heap : forall b t t', openRight b t = Ok t' -> t_heap t' = t_heap t.
Proof. intros b t t' H. unfold openRight in H. bind H T. now injection H as <-. Qed.
Lemma exists_calm : forall o e t t', calmHeap (t_heap t) -> transformExists o e t = Ok t' -> calmHeap (t_heap t').
Proof.
  intros o e t t' HH H. unfold transformExists in H. bind H q. destruct q as [t1 b]. bind H q. destruct q as [t2 d].
  apply pick_calm in E; [|auto]. apply makeRef_calm in E0 as [E0 _]; [|auto]. eapply addOp_calm; [| |exact H]; auto.
Qed.
Lemma comparison_calm : forall o e op l r t t', calmHeap (t_heap t) ->
  (op <> OpMatches -> (constant l || constant r) && negb (constantText l) && negb (constantText r) = true) -> op <> OpExists ->
  transformComparison o e op l r t = Ok t' -> calmHeap (t_heap t').
Proof.
  intros o e op l r t t' HH HC HE H. unfold transformComparison in H. bind H q. destruct q as [t1 b]. bind H q. destruct q as [t2 dl]. bind H q. destruct q as [t3 dr].
  apply pick_calm in E; [|auto]. apply makeRef_calm in E0 as [E0 C0]; [|auto]. apply makeRef_calm in E1 as [E1 C1]; [|auto]. eapply addOp_calm; [| |exact H]; auto.
  unfold calmOp. cbn [op_op op_lhs op_rhs].
  assert (op <> OpMatches -> (constRefB dl || constRefB dr) && negb (softRef dl) && negb (softRef dr) = true) as X.
  { intro N. specialize (HC N). apply andb_true_iff in HC as [HC S2]. apply andb_true_iff in HC as [HU S1]. apply negb_true_iff in S1, S2.
    destruct (C0 S1) as [A1 A2], (C1 S2) as [B1 B2]. rewrite A1, B1. cbn [negb]. rewrite !andb_true_r. apply orb_true_iff in HU as [HU|HU]; apply orb_true_iff; auto. }
  destruct op; auto; apply X; discriminate.
Qed.
Lemma transformOne_calm : forall o e t t', calmHeap (t_heap t) -> calm e = true -> transformOne o e t = Ok t' -> calmHeap (t_heap t').
Proof.
  intros o e. induction e as [| |g|sa|sa|sa|a IH|l IH|l IH|r p|n l IH|m v i s IHi IHs|a IH|a IH|k l r IHl IHr] using expr_ind'; intros t t' HH HC H;
    try (cbn [transformOne] in H; now injection H as <-).
  - cbn [transformOne] in H. unfold transformNot in H. bind H t1. apply openLeft_heap in E. eapply IH; [|exact HC|exact H]. now rewrite E.
  - rewrite transformOne_and in H. cbn [calm] in HC. revert t t' HH HC H. induction IH as [|a l Ha Hl IHl]; intros t t' HH HC H; [discriminate|]. cbn [forallb] in HC. apply andb_true_iff in HC as [C1 C2].
    cbn [transformChain] in H. destruct l as [|a2 l]; [eauto|]. unfold transformBin in H. bind H t1. bind H t2. bind H t3. apply openLeft_heap in E. apply Ha in E0; [|now rewrite E|auto].
    apply openRight_heap in E1. eapply IHl; [|exact C2|exact H]. now rewrite E1.
  - rewrite transformOne_or in H. cbn [calm] in HC. revert t t' HH HC H. induction IH as [|a l Ha Hl IHl]; intros t t' HH HC H; [discriminate|]. cbn [forallb] in HC. apply andb_true_iff in HC as [C1 C2].
    cbn [transformChain] in H. destruct l as [|a2 l]; [eauto|]. unfold transformBin in H. bind H t1. bind H t2. bind H t3. apply openLeft_heap in E. apply Ha in E0; [|now rewrite E|auto].
    apply openRight_heap in E1. eapply IHl; [|exact C2|exact H]. now rewrite E1.
  - cbn [transformOne] in H. unfold transformLoop in H. bind H q. destruct q as [t1 b]. bind H q. destruct q as [t2 tg]. bind H t3. bind H t5. bind H t6.
    apply pick_calm in E; [|auto]. apply makeRef_calm in E0 as [E0 _]; [|auto]. apply openLeft_heap in E1. apply addLoop_calm in E2; [|cbn [t_heap setHeap]; apply calmHeap_app; now rewrite E1].
    apply IHs in E3; [|exact E2|exact HC]. unfold popContext in H. destruct (t_ctx t6) as [|[w m0] r]; [discriminate|]. destruct (Nat.eqb m0 _); [|discriminate]. injection H as <-. exact E3.
  - cbn [transformOne] in H. eapply exists_calm; eauto.
  - cbn [transformOne] in H. unfold transformNot in H. bind H t1. apply openLeft_heap in E. eapply exists_calm; [|exact H]. now rewrite E.
  - destruct k; cbn [transformOne] in H; try (eapply comparison_calm; [exact HH| | |exact H]; [intros _; exact HC|discriminate]).
    + unfold transformNot in H. bind H t1. apply openLeft_heap in E. eapply comparison_calm; [rewrite E; exact HH| | |exact H]; [intros _; exact HC|discriminate].
    + eapply comparison_calm; [exact HH| | |exact H]; [intro N; now elim N|discriminate].
Qed.
Lemma merge_calm : forall o l t t' ids, calmHeap (t_heap t) -> forallb calm l = true -> transformMerge o l t = Ok (t', ids) -> calmHeap (t_heap t').
Proof.
  intros o l. induction l as [|a l IH]; intros t t' ids HH HC H; [discriminate|]. cbn [forallb] in HC. apply andb_true_iff in HC as [C1 C2]. cbn [transformMerge] in H. destruct l as [|a2 l].
  - bind H t1. injection H as <- <-. eapply transformOne_calm; eauto.
  - bind H t1. bind H t2. bind H t3. bind H q. destruct q as [t4 ids4]. injection H as <- <-. apply openLeft_heap in E. apply transformOne_calm in E0; [|now rewrite E|auto].
    apply openRight_heap in E1. eapply IH; [|exact C2|exact E2]. now rewrite E1.
Qed.
Lemma transform_calm : forall o es D h, forallb calm es = true -> transform o es = Ok D -> d_heap D = Some h -> calmHeap h.
Proof.
  intros o es D h HC H Hh. unfold transform in H. assert (forallb calm (genExprs es) = true) as HG.
  { unfold genExprs. clear - HC. induction es as [|e es IH]; [reflexivity|]. cbn [forallb] in HC. apply andb_true_iff in HC as [C1 C2]. cbn [List.filter].
    destruct (isConst e); [auto|]. cbn [forallb]. now rewrite C1, IH. }
  destruct (genExprs es) as [|g gs]; [injection H as <-; discriminate|]. bind H q. destruct q as [t ids]. apply merge_calm in E; [|repeat constructor|exact HG].
  destruct (validate (t_tree t)); try discriminate. destruct (Nat.eqb _ _); [|discriminate]. injection H as <-. injection Hh as <-. exact E.
Qed.
Lemma calm_done : forall fuel o es D doc s, forallb calm es = true -> transform o es = Ok D -> matchP fuel o D doc s = Done (match_ fuel o D doc s).
Proof. intros fuel o es D doc s HC HT. apply match_done. intros h Hh. eapply transform_calm; eauto. Qed.

