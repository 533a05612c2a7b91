(** More fuel never changes what the simple parser does. *)
From Coq Require Import String.
From Verif Require Import Base MTokenizer MLit MFastVal MMath MBinTree SEvents MExpr MExprJson MText MSimple.
From Coq Require Import List NArith ZArith Arith Lia Bool.
Import ListNotations.
Open Scope nat_scope.

Section Fuel.
  Variable o : oracles.

  Lemma resolveArgs_mono : forall r1 r2, (forall h t k x, r1 h t k = Some x -> r2 h t k = Some x) ->
    forall k key first fx l h x, resolveArgs o r1 k key first fx l h = Some x -> resolveArgs o r2 k key first fx l h = Some x.
  Proof.
    intros r1 r2 HR. induction k as [|k IH]; intros key first fx l h x H; [discriminate|]. cbn [resolveArgs] in *.
    destruct l as [|s r]; auto. destruct (funcKey s) as [[[key' ?] ?]|].
    - cbv zeta in *. destruct (r1 _ first key') as [[h' e]|] eqn:E; [|discriminate]. rewrite (HR _ _ _ _ E). auto.
    - destruct (valueCheck s); auto; [destruct (_ && _); auto|]. destruct (parseField (s :: r)) as [[p r']|]; auto.
  Qed.
  Lemma resolve_mono : forall f g h t k x, f <= g -> resolve o f h t k = Some x -> resolve o g h t k = Some x.
  Proof.
    induction f as [|f IH]; intros g h t k x Hg H; [discriminate|]. destruct g as [|g]; [lia|]. cbn [resolve] in *.
    destruct (find _ builtins) as [[[? a] ?]|]; auto. cbv zeta in *. eapply resolveArgs_mono; [|exact H]. intros. eapply IH; eauto. lia.
  Qed.
  Definition mono {A : Type} (F : nat -> outcome A) : Prop := forall f g, f <= g -> F f <> OutOfFuel -> F g = F f.
  Lemma unfinished_mono : forall c q out, mono (fun f => unfinished f c q out).
  Proof.
    intros c q out f. revert c q out. induction f as [|f IH]; intros c q out g Hg H; [contradiction H; reflexivity|]. destruct g as [|g]; [lia|]. cbn [unfinished] in *.
    destruct (nth_error (c_toks c) (c_cur c)) as [t0|]; auto. cbv zeta in *. destruct (hasSuffix _ [q]); auto. apply IH; auto. lia.
  Qed.
  Lemma funcToken_mono : forall c t key, mono (fun f => funcToken o f c t key).
  Proof.
    intros c t key f g Hg H. unfold funcToken in *. destruct (sc_mode (c_sub c)); auto;
      (destruct (resolve o f _ t key) as [[h e]|] eqn:E; [|contradiction H; reflexivity]); rewrite (resolve_mono _ _ _ _ _ _ Hg E); reflexivity.
  Qed.
  Lemma getToken_mono : forall c, mono (fun f => getToken o f c).
  Proof.
    intros c f. revert c. induction f as [|f IH]; intros c g Hg H; [contradiction H; reflexivity|]. destruct g as [|g]; [lia|].
    assert (forall c, getToken o f c <> OutOfFuel -> getToken o g c = getToken o f c) as IH' by (intros; apply IH; auto; lia). clear IH.
    assert (f <= g) as Hfg by lia. cbn [getToken] in *.
    destruct (nth_error (c_toks c) (c_cur c)) as [t|]; auto. cbv zeta in *.
    repeat match goal with
    | |- getToken o g ?c = getToken o f ?c => apply IH'; exact H
    | |- funcToken o g ?c ?t ?k = _ => now apply (funcToken_mono c t k)
    | |- unfinished g ?c ?q ?u = _ => now apply (unfinished_mono c q u)
    | |- ?x = ?x => reflexivity
    | |- match ?b with _ => _ end = _ => destruct b eqn:?
    end.
  Qed.
  Lemma parse_mono : forall c, mono (fun f => parse o f c).
  Proof.
    intros c f. revert c. induction f as [|f IH]; intros c g Hg H; [contradiction H; reflexivity|]. destruct g as [|g]; [lia|].
    assert (forall c, parse o f c <> OutOfFuel -> parse o g c = parse o f c) as IH' by (intros; apply IH; auto; lia). clear IH.
    assert (f <= g) as Hfg by lia. cbn [parse] in *. cbv zeta in *.
    assert (getToken o g c = getToken o f c) as -> by (apply (getToken_mono c); auto; intro E; rewrite E in H; apply H; reflexivity).
    destruct (getToken o f c) as [[[[c1 t] ty] e]| | |]; auto. cbn [obind] in *. destruct e; auto. destruct (checkType c1 ty) as [c2 e].
    assert (forall c3, (let (c4, e4) := advance c3 in match e4 with SNil => parse o f c4 | e => finish c4 e end) <> OutOfFuel ->
      (let (c4, e4) := advance c3 in match e4 with SNil => parse o g c4 | e => finish c4 e end) = (let (c4, e4) := advance c3 in match e4 with SNil => parse o f c4 | e => finish c4 e end)) as HN.
    { intros c3 H3. destruct (advance c3) as [c4 e4]. destruct e4; auto. }
    assert (forall b, (do (c3, e3) <- parse o f (withSub c2 (newSub b)); match e3 with SNil | SOneDone => do (c4, e4) <- merge c3 (c_sub c2);
          match e4 with SNil => (let (c5, e5) := advance c4 in match e5 with SNil => parse o f c5 | e => finish c5 e end) | e => finish c4 e end | e => finish c3 e end) <> OutOfFuel ->
       (do (c3, e3) <- parse o g (withSub c2 (newSub b)); match e3 with SNil | SOneDone => do (c4, e4) <- merge c3 (c_sub c2);
          match e4 with SNil => (let (c5, e5) := advance c4 in match e5 with SNil => parse o g c5 | e => finish c5 e end) | e => finish c4 e end | e => finish c3 e end)
       = (do (c3, e3) <- parse o f (withSub c2 (newSub b)); match e3 with SNil | SOneDone => do (c4, e4) <- merge c3 (c_sub c2);
          match e4 with SNil => (let (c5, e5) := advance c4 in match e5 with SNil => parse o f c5 | e => finish c5 e end) | e => finish c4 e end | e => finish c3 e end)) as HI.
    { intros b H3. assert (parse o g (withSub c2 (newSub b)) = parse o f (withSub c2 (newSub b))) as -> by (apply IH'; intro E; rewrite E in H3; apply H3; reflexivity).
      destruct (parse o f (withSub c2 (newSub b))) as [[c3 e3]| | |]; auto. cbn [obind] in *.
      destruct e3; auto; (destruct (merge c3 (c_sub c2)) as [[c4 e4]| | |]; auto); cbn [obind] in *; destruct e4; auto. }
    destruct e; auto. destruct (insertNode c2 ty t) as [c3| | |]; auto. cbn [obind] in *. auto.
  Qed.
  Definition argsOut (F : nat -> outcome expr) : list farg -> outcome (list expr) :=
    fix go l := match l with
                | [] => Ok []
                | FIdx n :: r => do e <- F n; match e with XFunc _ _ => do es <- go r; Ok (e :: es) | _ => Panic end
                | FPath p :: r => do es <- go r; Ok (XField 0 p :: es)
                | FStr s :: r => do e <- outValue o s; do es <- go r; Ok (e :: es)
                end.
  Lemma outFunc_S : forall f h lvl, outFunc o (S f) h lvl =
    match nth_error (h_args h) lvl with
    | Some (FStr key :: l) =>
        let name := match find (fun p => bytes_eqb (fst (fst p)) key) builtins with Some (_, _, n) => n | None => [] end in
        match l with
        | [] => if bytes_eqb name (s2b "mathPi") then Ok (XValue (GFloat fpi)) else if bytes_eqb name (s2b "mathE") then Ok (XValue (GFloat fe)) else Ok (XFunc name [])
        | _ => do ps <- argsOut (outFunc o f h) l; Ok (XFunc name ps)
        end
    | _ => Err
    end.
  Proof. reflexivity. Qed.
  Lemma argsOut_mono : forall F G, (forall n, F n <> OutOfFuel -> G n = F n) -> forall l, argsOut F l <> OutOfFuel -> argsOut G l = argsOut F l.
  Proof.
    intros F G HFG. induction l as [|a l IH]; intro H; [reflexivity|]. cbn [argsOut] in *. fold (argsOut F) in *. fold (argsOut G) in *.
    destruct a as [s|n|p].
    - destruct (outValue o s); auto. cbn [obind] in *. rewrite IH; [reflexivity|]. intro E. rewrite E in H. apply H. reflexivity.
    - assert (G n = F n) as -> by (apply HFG; intro E; rewrite E in H; apply H; reflexivity). destruct (F n) as [e| | |]; auto. cbn [obind] in *.
      destruct e; auto. rewrite IH; [reflexivity|]. intro E. rewrite E in H. apply H. reflexivity.
    - rewrite IH; [reflexivity|]. intro E. rewrite E in H. apply H. reflexivity.
  Qed.
  Lemma outFunc_mono : forall h lvl, mono (fun f => outFunc o f h lvl).
  Proof.
    intros h lvl f. revert lvl. induction f as [|f IH]; intros lvl g Hg H; [contradiction H; reflexivity|]. destruct g as [|g]; [lia|].
    rewrite !outFunc_S in *. destruct (nth_error (h_args h) lvl) as [[|[key| |] l]|]; auto. cbv zeta in *. destruct l as [|a l]; auto.
    rewrite (argsOut_mono (outFunc o f h) (outFunc o g h)); auto; [intros; apply IH; auto; lia|].
    intro E. rewrite E in H. apply H. reflexivity.
  Qed.
  Lemma outNode_mono : forall c i, mono (fun f => outNode o f c i).
  Proof.
    intros c i f. revert i. induction f as [|f IH]; intros i g Hg H; [contradiction H; reflexivity|]. destruct g as [|g]; [lia|].
    assert (forall i, outNode o f c i <> OutOfFuel -> outNode o g c i = outNode o f c i) as IH' by (intros; apply IH; auto; lia). clear IH.
    assert (f <= g) as Hfg by lia. cbn [outNode] in *. destruct (nth_error (c_tree c) i) as [n|]; auto. destruct (pn_type n); auto.
    - destruct (lookupN i (c_funcs c)); auto. now apply (outFunc_mono f0 (h_lvl f0)).
    - cbv zeta in *. destruct (pn_left n) as [l|].
      2:{ destruct (cmpOp (pn_data n)); auto. }
      assert (forall k : expr -> expr -> expr, match pn_right n with None => Err | Some r => do a <- outNode o f c l; do b <- outNode o f c r; Ok (k a b) end <> OutOfFuel ->
        match pn_right n with None => Err | Some r => do a <- outNode o g c l; do b <- outNode o g c r; Ok (k a b) end
        = match pn_right n with None => Err | Some r => do a <- outNode o f c l; do b <- outNode o f c r; Ok (k a b) end) as H2.
      { intros k HK. destruct (pn_right n) as [r|]; auto. assert (outNode o g c l = outNode o f c l) as -> by (apply IH'; intro E; rewrite E in HK; apply HK; reflexivity).
        destruct (outNode o f c l) as [a| | |]; auto. cbn [obind] in *. assert (outNode o g c r = outNode o f c r) as -> by (apply IH'; intro E; rewrite E in HK; apply HK; reflexivity). reflexivity. }
      assert (forall k : expr -> outcome expr, (do a <- outNode o f c l; k a) <> OutOfFuel -> (do a <- outNode o g c l; k a) = (do a <- outNode o f c l; k a)) as H1.
      { intros k HK. assert (outNode o g c l = outNode o f c l) as -> by (apply IH'; intro E; rewrite E in HK; apply HK; reflexivity). reflexivity. }
      assert (forall k : expr -> expr -> expr, (do a <- outNode o f c l; match pn_right n with None => Err | Some r => do b <- outNode o f c r; Ok (k a b) end) <> OutOfFuel ->
        (do a <- outNode o g c l; match pn_right n with None => Err | Some r => do b <- outNode o g c r; Ok (k a b) end)
        = (do a <- outNode o f c l; match pn_right n with None => Err | Some r => do b <- outNode o f c r; Ok (k a b) end)) as H3.
      { intros k HK. assert (outNode o g c l = outNode o f c l) as -> by (apply IH'; intro E; rewrite E in HK; apply HK; reflexivity).
        destruct (outNode o f c l) as [a| | |]; auto. cbn [obind] in *. destruct (pn_right n) as [r|]; auto.
        assert (outNode o g c r = outNode o f c r) as -> by (apply IH'; intro E; rewrite E in HK; apply HK; reflexivity). reflexivity. }
      destruct (cmpOp (pn_data n)); [now apply H2|]. destruct (bytes_eqb _ (s2b "NOT_LIKE")); [now apply H2|].
      destruct (bytes_eqb _ (s2b "||")); [now apply H3|]. destruct (bytes_eqb _ (s2b "&&")); [now apply H3|].
      repeat (match goal with |- context [if ?b then _ else _] => destruct b end; [now apply H1|]). reflexivity.
  Qed.
  Theorem parseSimple_mono : forall text, mono (fun f => parseSimple o f text).
  Proof.
    intros text f g Hfg H. unfold parseSimple in *.
    assert (parse o g (startCtx (fields text)) = parse o f (startCtx (fields text))) as -> by (apply (parse_mono (startCtx (fields text))); auto; intro E; rewrite E in H; apply H; reflexivity).
    destruct (parse o f (startCtx (fields text))) as [[c e]| | |]; auto. cbn [obind] in *. destruct e; auto. unfold outputSimple in *.
    destruct (c_head c) as [h|]; auto. destruct (nth_error (c_tree c) h) as [n|]; auto. destruct (pn_type n); auto. now apply (outNode_mono c h).
  Qed.

  (** ** Running forever *)
  Lemma unfinished_stuck : forall f c q out, nth_error (c_toks c) (c_cur c) = Some [41%N] -> c_depth c <> 0 -> q <> 41%N -> unfinished f c q out = OutOfFuel.
  Proof.
    induction f as [|f IH]; intros c q out HT HD HQ; [reflexivity|]. cbn [unfinished]. rewrite HT.
    assert (c_depth c =? 0 = false) as -> by now apply Nat.eqb_neq. cbn [negb andb]. change (hasSuffix [41%N] [41%N]) with true. cbv iota.
    assert (c_cur c < length (c_toks c)) as HL by (apply nth_error_Some; congruence).
    assert (length (firstn (c_cur c) (c_toks c)) = c_cur c) as HF by (rewrite firstn_length; lia).
    assert (nth (c_cur (putToks c (splitSuffix [41%N] 41%N))) (c_toks (putToks c (splitSuffix [41%N] 41%N))) [] = []) as ->.
    { unfold putToks. cbn [withToks c_toks c_cur]. rewrite app_nth2 by lia. rewrite HF, Nat.sub_diag. reflexivity. }
    assert (hasSuffix [] [q] = false) as -> by reflexivity. apply IH; auto.
    unfold putToks. cbn [withToks c_toks c_cur]. rewrite nth_error_app2 by lia. rewrite HF. replace (S (c_cur c) - c_cur c) with 1 by lia. reflexivity.
  Qed.
End Fuel.
