(** C81: a text filter answers what it says. *)
From Coq Require Import String.
From Verif Require Import Base MTokenizer SJson SUnicode SNames MLit PLit MFastVal SEvents MExpr MTransform MExprJson SExprJson SFilter MMatcher MTree SDoc SSat SSem SNumber
  PExpr PWf PSem PCheck PNumber SExamples TFastVal TMatch TNames MText SText PText TText MGrammar SGrammar PGrammar TGrammar SDate PDate TDate TNumber PNearest SRound SArith TArith SOrder TOrder SJsonFilter TJsonFilter STextFilter.
From Verif Require Import MMath.
From Verif Require PFloat TNames.
From Coq Require DecimalN.
From Coq Require Import List NArith ZArith QArith Qabs Lia Lqa Bool.
From Coq Require Import Floats.SpecFloat.
Import ListNotations.
Open Scope Q_scope.

(** ** From the tests to the filter *)
Lemma outcome_means : forall o x doc sb f, allBasic (fun t => means1 o x doc t = sb t) f -> means o x doc f = filterOutcome sb f.
Proof.
  intros o x doc sb.
  assert (forall c, allCond (fun t => means1 o x doc t = sb t) c -> meansCond o x doc c = condOutcome sb c) as HC.
  { induction c as [c IH|b]; intro X; [cbn; now rewrite IH|exact X]. }
  apply (filter_ind' (fun f => allBasic (fun t => means1 o x doc t = sb t) f -> means o x doc f = filterOutcome sb f)
    (fun c => allConj (fun t => means1 o x doc t = sb t) c -> meansConj o x doc c = conjOutcome sb c)
    (fun t => allTerm (fun t => means1 o x doc t = sb t) t -> meansTerm o x doc t = termOutcome sb t)).
  - intros a l Ha Hl X. apply allBasic_eq in X. destruct X as [Xa Xl]. change (meansConj o x doc a || existsb (meansConj o x doc) l = conjOutcome sb a || existsb (conjOutcome sb) l). rewrite (Ha Xa). f_equal.
    revert Xl. induction Hl as [|c l Hc Hl IH]; intro Xl; auto. destruct Xl as [Xc Xl]. cbn [existsb]. now rewrite (Hc Xc), (IH Xl).
  - intros a l Ha Hl X. apply allConj_eq in X. destruct X as [Xa Xl]. change (meansTerm o x doc a && forallb (meansTerm o x doc) l = termOutcome sb a && forallb (termOutcome sb) l). rewrite (Ha Xa). f_equal.
    revert Xl. induction Hl as [|c l Hc Hl IH]; intro Xl; auto. destruct Xl as [Xc Xl]. cbn [forallb]. now rewrite (Hc Xc), (IH Xl).
  - intros f IH X. now apply IH.
  - exact HC.
Qed.
Lemma all_imp : forall (P Q : tbasic -> Prop), (forall t, P t -> Q t) -> forall f, allBasic P f -> allBasic Q f.
Proof.
  intros P Q HPQ.
  assert (forall c, allCond P c -> allCond Q c) as HC by (induction c as [c IH|b]; intro X; [now apply IH|now apply HPQ]).
  apply (filter_ind' (fun f => allBasic P f -> allBasic Q f) (fun c => allConj P c -> allConj Q c) (fun t => allTerm P t -> allTerm Q t)); auto.
  - intros a l Ha Hl X. apply allBasic_eq in X. apply allBasic_eq. destruct X as [Xa Xl]. split; auto.
    revert Xl. induction Hl as [|c l Hc Hl IH]; intro Xl; [exact I|]. destruct Xl as [Xc Xl]. split; auto.
  - intros a l Ha Hl X. apply allConj_eq in X. apply allConj_eq. destruct X as [Xa Xl]. split; auto.
    revert Xl. induction Hl as [|c l Hc Hl IH]; intro Xl; [exact I|]. destruct Xl as [Xc Xl]. split; auto.
Qed.

(** ** The tests *)
Lemma valQ_opp : forall f, valQ (SFopp f) == - valQ f.
Proof. intros [s|s| |s m e]; cbn [SFopp valQ]; try reflexivity. destruct s; cbn [negb]; setoid_replace (inject_Z (Z.pos m)) with (- inject_Z (Z.neg m)) by reflexivity; ring. Qed.
Lemma opp_opp : forall f : float, SFopp (SFopp f) = f.
Proof. intros [s|s| |s m e]; cbn; auto; now rewrite negb_involutive. Qed.
Lemma nearest_opp : forall f v, nearest f v -> nearest (SFopp f) (- v).
Proof.
  intros f v [F H]. split; [now apply finite_opp|]. intros g G. specialize (H (SFopp g) (finite_opp g G)). rewrite !valQ_opp in *.
  setoid_replace (- valQ f - - v) with (- (valQ f - v)) by ring. rewrite Qabs_opp.
  setoid_replace (valQ g - - v) with (- (- valQ g - v)) by ring. now rewrite Qabs_opp.
Qed.

(** Values near two decimals compare like them. *)
Lemma hand_holds : forall o k x y u u' q q' v w (i j : Q), parsesDecimals o -> k <> CLike -> inHand x q -> inHand y q' -> Qabs (q - v) <= i * step -> Qabs (q' - w) <= j * step ->
  0 <= i -> 0 <= j -> i + j <= 5 -> modest v -> modest w -> (cmpHolds o k (FV x u) (FV y u') = true <-> orderedQ k v w).
Proof.
  intros o k x y u u' q q' v w i j HP Hk H1 H2 D1 D2 Pi Pj PS [[a Ea] Bv] [[b Eb] Bw].
  assert (step == 1 # 100000000) as ES by reflexivity. assert (i * step + j * step <= 5 * step) as DS by (rewrite ES; lra).
  assert (0 <= i * step) as P1 by (rewrite ES; lra). assert (0 <= j * step) as P2 by (rewrite ES; lra).
  set (di := i * step) in *. set (dj := j * step) in *. clearbody di dj. apply Qabs_Qle_condition in D1, D2.
  apply sign_holds; auto. destruct (Z.eq_dec a b) as [->|ND].
  - assert (v == w) as EQ by (rewrite Ea, Eb; reflexivity). rewrite (sgnQ_eq v w EQ). apply (hand_close o x y q q'); auto. apply Qabs_Qle_condition. split; lra.
  - destruct (number_compare o x y q q' u u' HP (hand_held o x q H1) (hand_held o y q' H2)) as (c & EC & _ & EA). rewrite EC. f_equal.
    apply Qabs_Qle_condition in Bv, Bw. assert (billion == 1000000000) as EB by reflexivity.
    assert (v + (1 # 1000000) <= w \/ w + (1 # 1000000) <= v) as [LT|GT].
    { rewrite Ea, Eb. destruct (Z_lt_le_dec a b); [left|right]; unfold Qle, Qplus; cbn [Qnum Qden]; lia. }
    + rewrite EA; [|apply Qabs_Qle_condition; lra|apply Qabs_Qle_condition; lra|rewrite Qabs_neg by lra; lra].
      assert (q < q') as X by lra. assert (v < w) as Y by lra. destruct (sgnQ_lt _ _ X) as [-> _], (sgnQ_lt _ _ Y) as [-> _]. reflexivity.
    + rewrite EA; [|apply Qabs_Qle_condition; lra|apply Qabs_Qle_condition; lra|rewrite Qabs_pos by lra; lra].
      assert (q' < q) as X by lra. assert (w < v) as Y by lra. destruct (sgnQ_lt _ _ X) as [_ ->], (sgnQ_lt _ _ Y) as [_ ->]. reflexivity.
Qed.
Lemma joined_modest : forall p v w, operands p v w -> modest (joinedQ p v w).
Proof.
  assert (forall v w, small v -> small w -> modest (v + w) /\ modest (v - w)) as S.
  { intros v w [[a Ea] Bv] [[b Eb] Bw]. apply Qabs_Qle_condition in Bv, Bw.
    split; (split; [|apply Qabs_Qle_condition; lra]); [exists (a + b)%Z|exists (a - b)%Z]; rewrite Ea, Eb; unfold Qeq, Qplus, Qminus, Qopp; cbn; lia. }
  intros p v w H. destruct p; try destruct H; cbn [joinedQ]; try (now apply S).
  destruct H as [[a Ea] Bv], H0 as [[b Eb] Bw]. split; [exists (a * b)%Z; rewrite Ea, Eb; reflexivity|]. pose proof (abs_product _ _ _ _ Bv Bw). lra.
Qed.
Lemma operands_modest : forall p v w, operands p v w -> modest v /\ modest w.
Proof.
  assert (forall v, small v -> modest v) as S by (intros v [S B]; split; auto; lra).
  assert (forall v, threeFine v -> modest v) as F.
  { intros v [[z E] B]. split; [|lra]. exists (z * 1000)%Z. rewrite E. unfold Qeq. cbn [Qnum Qden]. lia. }
  intros p v w H. destruct p; destruct H; auto.
Qed.
Lemma paths_apart : forall l : list (list bytes), (forall p q, In p l -> In q l -> p <> q -> apart p q) -> prefix_free l.
Proof.
  intros l H p k t HI HJ. assert (p <> p ++ k :: t) as N.
  { intro E. assert (List.length p = List.length (p ++ k :: t)) as L by congruence. rewrite app_length in L. cbn in L. lia. }
  apply (proj1 (H _ _ HI HJ N k t)). reflexivity.
Qed.
Lemma apart_sym : forall p q, apart p q -> apart q p.
Proof. intros p q H c r. destruct (H c r). now split. Qed.

Section Tests.
  Variables (o : oracles) (x : textEnv) (doc : cst).
  Hypothesis HP : parsesDecimals o.
  Hypothesis HL : libraries o.
  Hypothesis WD : wf_cst doc.
  Hypothesis HN : named doc.
  Hypothesis HO : TMatch.solid doc.

  Lemma prints : printsAscii (o_isPrint o).
  Proof. intros u H. now apply HL. Qed.
  Lemma found : forall p w, valueAt p doc w -> at_ p doc = Some w.
  Proof. intros. now apply C19_paths. Qed.
  Lemma lost : forall p, absent doc p -> at_ p doc = None.
  Proof. intros p H. destruct (at_ p doc) as [w|] eqn:E; auto. apply C19_paths in E; auto. destruct (H w E). Qed.
  Lemma side_near : forall l v, quantity doc l v -> modest v ->
    bareSide l /\ SText.there doc (sideFields l) = true /\ exists e, numberNear doc e v /\ sideVal o doc l = oval o doc doc e.
  Proof.
    intros l v H [HS HB]. destruct H as [f t y v NF HV HX|neg z Hz|neg f v HF].
    - split; [now constructor|]. pose proof (found _ _ HV) as E. split; [unfold SText.there; cbn [fieldS sideFields fmathFields forallb]; now rewrite E|]. exists (XField 0 (fieldPath f)).
      split; [eapply numeral_near; eauto; now split|]. cbn [fieldS sideVal fmathVal]. unfold fieldVal, negated. rewrite NF, E. cbn [oval]. unfold fieldAt. cbn [Nat.eqb]. now rewrite E.
    - assert (Z.abs (if neg then - z else z) <= 20000000)%Z as B by (rewrite Zle_Qle; exact HB). split; [constructor; cbn; destruct neg; lia|]. split; [reflexivity|].
      exists (XValue (GInt (if neg then - z else z)%Z)). split; [|reflexivity]. apply nn_exact, no_int. unfold exactInt. lia.
    - split; [constructor; apply HF|]. split; [reflexivity|]. exists (XValue (GFloat (if neg then SFopp f else f))). split; [|reflexivity].
      apply nn_const. destruct neg; [now apply nearest_opp|exact HF].
  Qed.
  Definition sumOp (p : aop) : plusMinus := match p with SText.Minus => Minus | _ => Plus end.
  Lemma op_near : forall l r p v w, quantity doc l v -> quantity doc r w -> operands p v w ->
    exists z q u, (do x <- sideVal o doc l; do y <- sideVal o doc r; aopFun p o x y) = Ok (FV z u) /\ inHand z q /\ Qabs (q - joinedQ p v w) <= 3 * step.
  Proof.
    intros l r p v w Hl Hr HQ. destruct (operands_modest p v w HQ) as [Mv Mw].
    destruct (side_near l v Hl Mv) as (_ & _ & e1 & N1 & E1), (side_near r w Hr Mw) as (_ & _ & e2 & N2 & E2). clear Mv Mw.
    assert (step == 1 # 100000000) as ES by reflexivity. assert (fine == 1 # 1000000000000) as EF by reflexivity.
    assert (p = SText.Times \/ small v /\ small w /\ (p = SText.Plus \/ p = SText.Minus)) as [->|(Sv & Sw & Hp)] by (destruct p; destruct HQ; auto).
    - destruct HQ as [[_ Bv] [_ Bw]].
      destruct (near_fine o doc e1 v HP WD HN N1 Bv) as (_ & y1 & u1 & v' & V1 & H1 & D1).
      destruct (near_fine o doc e2 w HP WD HN N2 Bw) as (_ & y2 & u2 & w' & V2 & H2 & D2).
      assert (Qabs v' <= 1001) as Bv' by (apply Qabs_Qle_condition in D1, Bv; apply Qabs_Qle_condition; lra).
      assert (Qabs w' <= 1001) as Bw' by (apply Qabs_Qle_condition in D2, Bw; apply Qabs_Qle_condition; lra).
      destruct (mul_hand o y1 y2 v' w' u1 u2 H1 H2 Bv' Bw') as (s & q & u3 & E4 & H4 & D4).
      exists s, q, u3. rewrite E1, E2, V1, V2. cbn [obind]. split; [exact E4|split; [exact H4|]].
      pose proof (abs_product _ _ _ _ D1 Bw') as X. pose proof (abs_product _ _ _ _ Bv D2) as Y. apply Qabs_Qle_condition in X, Y, D4. apply Qabs_Qle_condition.
      cbn [joinedQ]. setoid_replace (q - v * w) with (q - v' * w' + (v' - v) * w' + v * (w' - w)) by ring. split; lra.
    - destruct Sv as [_ Bv], Sw as [_ Bw].
      destruct (near_hand o doc e1 v HP WD HN N1 ltac:(lra)) as (_ & y1 & u1 & v' & V1 & H1 & D1).
      destruct (near_hand o doc e2 w HP WD HN N2 ltac:(lra)) as (_ & y2 & u2 & w' & V2 & H2 & D2).
      apply Qabs_Qle_condition in D1, D2, Bv, Bw.
      destruct (op_hand o (sumOp p) y1 y2 v' w' u1 u2 H1 H2) as (z & q & u & EO & HI & DQ); try (apply Qabs_Qle_condition; lra).
      exists z, q, u. rewrite E1, E2, V1, V2. cbn [obind]. split; [|split; [exact HI|]].
      + now destruct Hp as [-> | ->].
      + apply Qabs_Qle_condition in DQ. apply Qabs_Qle_condition. destruct Hp as [-> | ->]; cbn [sumOp opQ joinedQ] in *; split; lra.
  Qed.
  Lemma minus_hand : forall y v u, inHand y v -> Qabs v <= 40000000 -> exists z q u', mathNeg o (FV y u) = Ok (FV z u') /\ inHand z q /\ q == - v.
  Proof.
    intros y v u [z HZ|f F] HB.
    - exists (VInt (- z)), (inject_Z (- z)), false. unfold exactInt in HZ. split; [|split; [apply ih_int; unfold exactInt; lia|now rewrite inject_Z_opp]].
      unfold mathNeg, genericInt. cbn. unfold negateInt. replace (-1 * z)%Z with (- z)%Z by lia. rewrite wrap64_id by (unfold in_int64; lia). reflexivity.
    - destruct (Z2f_exact (-1) ltac:(unfold exactInt; lia)) as [F1 V1]. exists (VFloat (negateFloat f)), (valQ (negateFloat f)), false. split; [reflexivity|].
      assert (valQ (Z2f (-1)) * valQ f == valQ (SFopp f)) as E by (rewrite V1, valQ_opp; change (inject_Z (-1)) with (-(1)); ring).
      assert (40000000 < overflow) as OV by (apply (Qlt_le_trans _ vast); [vm_compute; reflexivity|exact vast_overflow]).
      assert (Qabs (valQ (Z2f (-1)) * valQ f) < overflow) as B by (rewrite E, valQ_opp, Qabs_opp; lra). destruct (fmul_nearest _ _ F1 F B) as [[FN N] _].
      split; [now constructor|]. specialize (N (SFopp f) (finite_opp f F)). fold (negateFloat f) in N. rewrite E in N.
      setoid_replace (valQ (SFopp f) - valQ (SFopp f)) with 0 in N by ring. change (Qabs 0) with 0 in N. apply Qabs_Qle_condition in N. pose proof (valQ_opp f). lra.
  Qed.
  Lemma abs_hand : forall y v u, inHand y v -> exists z q u', mathAbs o (FV y u) = Ok (FV z u') /\ inHand z q /\ q == Qabs v.
  Proof.
    intros y v u [z HZ|f F].
    - exists (VInt (Z.abs z)), (inject_Z (Z.abs z)), false. unfold exactInt in HZ. split; [apply PFloat.abs_small; lia|split; [apply ih_int; unfold exactInt; lia|reflexivity]].
    - destruct (C79_abs o f u F) as (r & E & R & V). exists (VFloat r), (valQ r), false. split; [exact E|]. split; [now constructor|exact V].
  Qed.
  Lemma side_total : forall l v, total doc l v ->
    SText.there doc (sideFields l) = true /\ (exists z q u, sideVal o doc l = Ok (FV z u) /\ inHand z q /\ Qabs (q - v) <= 3 * step) /\ modest v
    /\ sideLits l /\ sideRun l /\ (forall f, In f (sideFields l) -> at_ (fieldPath f) doc <> None) /\ sideWork l = sideFields l
    /\ (forall f g, In f (sideFields l) -> In g (sideFields l) -> f <> g -> apart (fieldPath f) (fieldPath g)).
  Proof.
    assert (forall f v, quantity doc (fieldS f) v -> exists w, at_ (fieldPath f) doc = Some w) as Q.
    { intros f v H. inversion H; subst. eexists. apply found; eassumption. }
    assert (forall f, (exists w, at_ (fieldPath f) doc = Some w) -> at_ (fieldPath f) doc <> None) as NE by (intros f [w ->]; discriminate).
    assert (forall n v, quantity doc (SValue (VNum n)) v -> modest v -> numOk n) as K.
    { intros n v H S. pose proof (side_near _ _ H S) as (B & _). now inversion B. }
    assert (forall p v w, operands p v w -> noDiv p) as ND by (intros p v1 v2 X; destruct p; destruct X; exact I).
    intros l v0 [f p g v' w NF NG HA Hv Hw SV|n p f v' w NF Hv Hw SV|f p n v' w NF Hv Hw SV|f t y v NF HV HX HM|f t y v NF HV HX HM].
    - destruct (Q _ _ Hv) as [y Ey], (Q _ _ Hw) as [y' Ey']. split; [unfold SText.there; cbn [sideFields fmathFields forallb]; now rewrite Ey, Ey'|].
      split; [exact (op_near _ _ p _ _ Hv Hw SV)|]. split; [now apply joined_modest|]. split; [exact I|]. split; [now apply (ND p v' w)|].
      split; [intros h [<-|[<-|[]]]; eauto|]. split; [reflexivity|]. intros h h' [<-|[<-|[]]] [<-|[<-|[]]] D; try (now destruct D); auto. now apply apart_sym.
    - destruct (Q _ _ Hw) as [y Ey]. split; [unfold SText.there; cbn [sideFields fmathFields forallb]; now rewrite Ey|].
      split; [exact (op_near _ _ p _ _ Hv Hw SV)|]. split; [now apply joined_modest|]. split; [exact (K _ _ Hv (proj1 (operands_modest _ _ _ SV)))|]. split; [now apply (ND p v' w)|].
      split; [intros h [<-|[]]; eauto|]. split; [reflexivity|]. intros h h' [<-|[]] [<-|[]] D. now destruct D.
    - destruct (Q _ _ Hv) as [y Ey]. split; [unfold SText.there; cbn [sideFields fmathFields forallb]; now rewrite Ey|].
      split; [exact (op_near _ _ p _ _ Hv Hw SV)|]. split; [now apply joined_modest|]. split; [exact (K _ _ Hw (proj2 (operands_modest _ _ _ SV)))|]. split; [now apply (ND p v' w)|].
      split; [intros h [<-|[]]; eauto|]. split; [reflexivity|]. intros h h' [<-|[]] [<-|[]] D. now destruct D.
    - pose proof (found _ _ HV) as E. pose proof (numeral_near doc (fieldPath f) t y v HV HX HM) as NR.
      destruct (near_hand o doc _ v HP WD HN NR ltac:(destruct HM; lra)) as (_ & y1 & u1 & v' & V1 & H1 & D1). cbn [oval] in V1. unfold fieldAt in V1. cbn [Nat.eqb] in V1. rewrite E in V1.
      assert (Qabs v' <= 40000000) as B' by (assert (step == 1 # 100000000) as ES by reflexivity; destruct HM as [_ HB]; apply Qabs_Qle_condition in D1, HB; apply Qabs_Qle_condition; lra).
      destruct (minus_hand y1 v' u1 H1 B') as (z & q & u & EZ & HI & EQ).
      split; [unfold SText.there; cbn [fieldS sideFields fmathFields callFields argFields forallb]; now rewrite E|].
      assert (step == 1 # 100000000) as ES by reflexivity. destruct HM as [[i Ei] HB]. apply Qabs_Qle_condition in D1.
      split; [exists z, q, u; split; [|split; [exact HI|apply Qabs_Qle_condition; split; lra]]; cbn [fieldS sideVal fmathVal]; unfold fieldVal, negated; rewrite NF, E, V1; exact EZ|].
      split; [split; [exists (- i)%Z; rewrite Ei; reflexivity|now rewrite Qabs_opp]|]. split; [exact I|]. split; [exact I|].
      split; [intros h [<-|[]]; eauto|]. split; [cbn; unfold fieldWork; now rewrite NF|]. intros h h' [<-|[]] [<-|[]] D. now destruct D.
    - pose proof (found _ _ HV) as E. pose proof (numeral_near doc (fieldPath f) t y v HV HX HM) as NR.
      destruct (near_hand o doc _ v HP WD HN NR ltac:(destruct HM; lra)) as (_ & y1 & u1 & v' & V1 & H1 & D1). cbn [oval] in V1. unfold fieldAt in V1. cbn [Nat.eqb] in V1. rewrite E in V1.
      destruct (abs_hand y1 v' u1 H1) as (z & q & u & EZ & HI & EQ).
      split; [unfold SText.there; cbn [fieldS sideFields fmathFields callFields argFields forallb]; now rewrite E|].
      assert (step == 1 # 100000000) as ES by reflexivity. destruct HM as [[i Ei] HB]. apply Qabs_Qle_condition in D1.
      split; [exists z, q, u; split; [|split; [exact HI|]]|].
      + change (sideVal o doc (SCall (COne false NAbs (AField (FPlain f))))) with (do a <- fieldVal o doc f; mathAbs o a). unfold fieldVal, negated. rewrite NF, E, V1. exact EZ.
      + rewrite EQ. apply (Qle_trans _ (Qabs (v' - v))); [apply Qabs_Qle_condition; split; [|apply Qabs_triangle_reverse]|apply Qabs_Qle_condition; split; lra].
        pose proof (Qabs_triangle_reverse v v') as R. setoid_replace (v - v') with (- (v' - v)) in R by ring. rewrite Qabs_opp in R. lra.
      + split; [split; [exists (Z.abs i); rewrite Ei; reflexivity|rewrite Qabs_pos; [exact HB|apply Qabs_nonneg]]|]. split; [exact I|]. split; [exact I|].
        split; [intros h [<-|[]]; eauto|]. split; [reflexivity|]. intros h h' [<-|[]] [<-|[]] D. now destruct D.
  Qed.
  Lemma side_text : forall l s, wording doc l s -> bareSide l /\ SText.there doc (sideFields l) = true /\ exists y, sideVal o doc l = Ok y /\ heldText o s y.
  Proof.
    intros l s [f t y b NF HV HX|b].
    - split; [now constructor|]. pose proof (found _ _ HV) as E. split; [unfold SText.there; cbn [fieldS sideFields fmathFields forallb]; now rewrite E|]. eexists. split; [|constructor].
      cbn [fieldS sideVal fmathVal]. unfold fieldVal, negated. rewrite NF, E. now apply name_val.
    - split; [now constructor|]. split; [reflexivity|]. eexists. split; [reflexivity|]. cbn [valueVal newFastVal isString toJsonString fst]. constructor.
  Qed.
  Lemma there_app : forall a b, SText.there doc (a ++ b) = SText.there doc a && SText.there doc b.
  Proof. intros. apply forallb_app. Qed.
  Lemma cop_cases : forall (F : cmpk -> bool) p (P : cmpk -> Prop), (F CNe = negb (F CEq)) -> (P CNe <-> ~ P CEq) ->
    (forall k, k <> CLike -> k <> CNe -> (F k = true <-> P k)) ->
    ((match p with OEq _ => F CEq | ONe _ => negb (F CEq) | OLt => F CLt | OLe => F CLe | OGt => F CGt | OGe => F CGe end) = true <-> P (copk p)).
  Proof.
    intros F p P HF HP' H. destruct p; cbn [copk]; try (apply H; discriminate). rewrite HP', negb_true_iff. rewrite <- (H CEq) by discriminate.
    destruct (F CEq); split; intro X; auto; try discriminate; try (now destruct X).
  Qed.
  Lemma bool_is : forall b b', (b = true <-> b' = true) -> b = b'.
  Proof. intros [|] [|] H; auto; [symmetry|]; now apply H. Qed.

  Lemma words_equal : forall l d r a s, wording doc l a -> wording doc r s -> all_bytes a -> all_bytes s -> (means1 o x doc (BCmp l (OEq d) r) = true <-> a = s).
  Proof.
    intros l d r a s Hl Hr Ba Bs. destruct (side_text l a Hl) as (_ & T1 & y1 & E1 & H1), (side_text r s Hr) as (_ & T2 & y2 & E2 & H2).
    cbn [means1]. unfold compares. rewrite there_app, T1, T2, E1, E2. cbn [andb cmpHolds]. unfold equals. rewrite (held_compare o a s y1 y2 H1 H2). cbn [fst snd].
    cbn [andb]. rewrite Z.eqb_eq, PFastVal.cmpBytes_eq. split; [now apply PQuote.quote_inj|now intros ->].
  Qed.

  Lemma side_date : forall l st z, moment doc l st z ->
    SText.there doc (sideFields l) = true /\ sideVal o doc l = Ok (plain (VTime (instant st z))) /\ sideLits l /\ sideOk o x l /\ sideRun l
    /\ (forall f, In f (sideFields l) -> at_ (fieldPath f) doc <> None) /\ sideWork l = sideFields l /\ (List.length (sideFields l) <= 1)%nat.
  Proof.
    intros l st z [f t y s st' z' NF HV HX HD|s st' z' HD].
    - pose proof (found _ _ HV) as E. split; [unfold SText.there; cbn [dateOfArg sideFields callFields argFields fmathFields forallb]; now rewrite E|]. split.
      + change (sideVal o doc (dateOfArg (AField (FPlain f)))) with (do v <- fieldVal o doc f; Ok (plain (dateFunc o (fv v)))). unfold fieldVal, negated. rewrite NF, E, (name_val o t y s HX).
        cbn [obind]. change (fv (plain (VBinString s))) with (VBinString s). rewrite (layout_parsed o s st' z'); auto.
      + assert (at_ (fieldPath f) doc <> None) as NE by (rewrite E; discriminate).
        split; [exact I|]. split; [split; exact I|]. split; [exact I|]. split; [intros g [<-|[]]; exact NE|]. split; [reflexivity|apply le_n].
    - split; [reflexivity|]. split.
      + change (sideVal o doc (dateOfArg (AValue (VStr s)))) with (Ok (plain (dateFunc o (VJsonString (quote o s))))).
        rewrite quote_print; [|auto|eapply print_layout, dl_iso; eauto]. rewrite (layout_parsed o s st' z'); auto using dl_iso.
      + cbn. split; [exact I|]. split; [split; [exact I|]|]; [|repeat split; auto; intros g []].
        unfold valueText. pose proof (iso_parsed o s st' z' HL HD) as GP. unfold getNewTime, isoToRfc in GP. unfold dateOk.
        destruct (iso8601Year s); auto. destruct (iso8601YearAndMonth s); auto. destruct (iso8601CompleteDate s); auto. left. eauto.
  Qed.
  Lemma not_null : forall w y, valOf o w = Ok y -> (forall b, w <> CLit TNull b) -> isNull (fv y) = false /\ userDefined y = false.
  Proof.
    intros [t b|es b|ms b] y E H; cbn [valOf] in E; try (now injection E as <-). destruct t; cbn [parseLit] in E; try discriminate E; try (now injection E as <-).
    - destruct (parseEscString _ _) as [[[c s'] al]| | |]; try discriminate E. now injection E as <-.
    - now destruct (H b).
  Qed.
  Lemma null_equal : forall y, isNull (fv y) = false -> userDefined y = false -> fst (equals o y (FV VNull true)) = false.
  Proof.
    intros [v u] N U. cbn in N, U. subst u. unfold equals, compare. cbn [userDefined orb]. unfold compareUserDefined. cbn [userDefined fv].
    assert (checkCompatibility o VNull v = true) as -> by (unfold checkCompatibility; cbn [isNull]; now destruct (isSameDataTypeAs VNull v)).
    cbn [negb]. unfold reverseCompare, compareInternal. cbn [fv]. unfold compareNull. cbn [isNull fv]. now rewrite N.
  Qed.

  Lemma wordy_int : forall s, wordy s -> snd (parseInt10 s) = false.
  Proof.
    intros s (c & HI & ND & N1 & N2). assert (forall l, In c l -> allDigits l = false) as A.
    { intros l HL'. destruct (allDigits l) eqn:E; auto. unfold allDigits in E. rewrite forallb_forall in E. specialize (E c HL'). unfold isDigit in E. apply andb_true_iff in E as [E1 E2]. apply N.leb_le in E1, E2. lia. }
    destruct s as [|a s]; [reflexivity|]. unfold parseInt10. destruct ((a =? 43)%N || (a =? 45)%N)%bool eqn:E.
    - assert (In c s) as HS by (destruct HI as [<-|HI]; auto; apply orb_true_iff in E as [E|E]; apply N.eqb_eq in E; contradiction).
      destruct s as [|a' s]; [reflexivity|]. now rewrite (A _ HS).
    - now rewrite (A _ HI).
  Qed.
  Lemma word_after : forall s i, wordy s -> compare o (plain (VBinString s)) (FV (VInt i) true) = (1%Z, false) /\ compare o (FV (VInt i) true) (plain (VBinString s)) = ((-1)%Z, false).
  Proof.
    intros s i H. assert (checkCompatibility o (VInt i) (VBinString s) = false) as E by (unfold checkCompatibility; cbn; now apply wordy_int).
    split; unfold compare, compareUserDefined; cbn [userDefined plain fv orb]; rewrite E; reflexivity.
  Qed.
  Lemma append_nat : forall d, nat_part d -> appendUint (dec_val 0 d) = d /\ (0 <= dec_val 0 d)%Z.
  Proof.
    intros d H. assert (Forall digit d) as HD by now apply nat_part_digits. pose proof (TNames.of_uint_val (TNames.toU d)) as V. rewrite TNames.toU_bytes in V by auto. split; [|lia].
    unfold appendUint. rewrite <- V, N2Z.id, DecimalN.Unsigned.to_of, TNames.toU_norm, TNames.toU_bytes; auto.
  Qed.
  Lemma append_literal : forall l, int_part l -> l <> s2b "-0"%string -> appendInt (int_val l) = l.
  Proof.
    intros l [n Hn|n Hn] N0; destruct (append_nat n Hn) as [E P]; unfold appendInt.
    - assert (int_val n = dec_val 0 n) as -> by (destruct Hn as [|c ds Hc _]; [reflexivity|]; unfold int_val; destruct (N.eq_dec c 45) as [->|NE]; [unfold digit19 in Hc; lia|]; destruct c as [|q]; [reflexivity|]; repeat (destruct q; try reflexivity); now destruct NE).
      now replace (dec_val 0 n <? 0)%Z with false by lia.
    - cbn [int_val]. rewrite Z.opp_involutive. destruct (Z.ltb_spec (- dec_val 0 n) 0) as [_|L]; [now rewrite E|]. assert (dec_val 0 n = 0%Z) as Z0 by lia. rewrite Z0 in E. destruct N0. now rewrite <- E.
  Qed.
  Lemma literal_ascii : forall l, int_part l -> asciiText l.
  Proof.
    assert (forall c, digit c \/ c = 45%N -> (c < 128)%N /\ (32 <= c < 127)%N /\ c <> 34%N /\ c <> 92%N) as A by (intros c [H| ->]; unfold digit in *; lia).
    assert (forall n, nat_part n -> Forall (fun c => digit c \/ c = 45%N) n) as B by (intros n H; eapply Forall_impl; [|apply nat_part_digits, H]; auto).
    assert (forall l, int_part l -> Forall (fun c => digit c \/ c = 45%N) l) as C by (intros l [n H|n H]; [auto|constructor; auto]).
    intros l H. eapply Forall_impl; [|apply C, H]. intros c Hc. specialize (A c Hc). repeat split; try tauto; try lia.
  Qed.
  Lemma int_text : forall l k s, int_part l -> in_int64 (int_val l) -> l <> s2b "-0"%string -> asciiText s -> k <> CLike ->
    (cmpHolds o k (plain (VInt (parseInt l))) (FV (VJsonString (quote o s)) true) = true <-> orderedText k l s).
  Proof.
    intros l k s HL' HR H0 HS Hk. pose proof (literal_ascii l HL') as AL.
    assert (forall b, asciiText b -> quote o b = b /\ Forall SUnicode.scalar b) as Q.
    { intros c A. pose proof (ascii_plain _ c prints A) as P. split; [apply PSlow.quote_print; exists c; split; [now rewrite ascii_own|auto]|]. eapply Forall_impl; [|exact P]. now intros u (X & _). }
    destruct (Q l AL) as [_ Sl], (Q s HS) as [Qs Ss]. apply sign_text; auto. rewrite !ascii_own, Qs by auto.
    assert (compare o (plain (VInt (parseInt l))) (FV (VJsonString s) true) = (- cmpBytes s (appendInt (parseInt l)), true)%Z) as -> by reflexivity.
    rewrite parseInt_exact, append_literal by auto. now rewrite (PFastVal.cmpBytes_swap s l).
  Qed.
  Lemma states_means : forall t b, states doc t b -> means1 o x doc t = b.
  Proof.
    intros t b H. destruct H as [l p r v w b HA Hl Hr Mv Mw Hb|l p r v w b HA Hl Hr Mw Hb|l p r v w b HA Hl Hr Mv Hb|l p r a s b HA Hl Hr Ta Ts Hb|l d r a s b HA Hl Hr Ba Bs Hb|l d r a s b HA Hl Hr Ba Bs Hb|l p r st z st' z' b HA Hl Hr Hb|f t y a d u c NF HV HB|f t y a d u c NF HV HB|f t y s p neg z NF HV HX HW HZ|f t y s p neg z NF HV HX HW HZ|f y s p b NF HV HX HR H0 HS Hb|l p r f HA Bl Br HI HX
      |f w HV|f HX|neg f NF HX|neg f w NF HV|neg f y NF HV|neg f NF HX|neg f w NF HV HB|u].
    - destruct (side_near l v Hl Mv) as (_ & T1 & e1 & N1 & E1), (side_near r w Hr Mw) as (_ & T2 & e2 & N2 & E2).
      destruct (near_hand o doc e1 v HP WD HN N1 ltac:(destruct Mv; lra)) as (_ & y1 & u1 & v1 & V1 & _).
      destruct (near_hand o doc e2 w HP WD HN N2 ltac:(destruct Mw; lra)) as (_ & y2 & u2 & v2 & V2 & _).
      apply bool_is. rewrite Hb. cbn [means1]. unfold compares. rewrite there_app, T1, T2, E1, E2, V1, V2. cbn [andb].
      apply (cop_cases (fun k => cmpHolds o k (FV y1 u1) (FV y2 u2)) p (fun k => orderedQ k v w)); [reflexivity|reflexivity|].
      intros k Hk _. now apply (near_holds o k doc e1 e2 v w).
    - destruct (side_total l v Hl) as (T1 & (y1 & q & u1 & E1 & H1 & D1) & Mv & _), (side_near r w Hr Mw) as (_ & T2 & e2 & N2 & E2).
      destruct (near_hand o doc e2 w HP WD HN N2 ltac:(destruct Mw; lra)) as (_ & y2 & u2 & w' & V2 & H2 & D2).
      apply bool_is. rewrite Hb. cbn [means1]. unfold compares. rewrite there_app, T1, T2, E1, E2, V2. cbn [andb].
      apply (cop_cases (fun k => cmpHolds o k (FV y1 u1) (FV y2 u2)) p (fun k => orderedQ k v w)); [reflexivity|reflexivity|].
      intros k Hk _. apply (hand_holds o k y1 y2 u1 u2 q w' v w 3 1); auto; try lra.
    - destruct (side_total r w Hr) as (T1 & (y1 & q & u1 & E1 & H1 & D1) & Mw & _), (side_near l v Hl Mv) as (_ & T2 & e2 & N2 & E2).
      destruct (near_hand o doc e2 v HP WD HN N2 ltac:(destruct Mv; lra)) as (_ & y2 & u2 & v' & V2 & H2 & D2).
      apply bool_is. rewrite Hb. cbn [means1]. unfold compares. rewrite there_app, T1, T2, E1, E2, V2. cbn [andb].
      apply (cop_cases (fun k => cmpHolds o k (FV y2 u2) (FV y1 u1)) p (fun k => orderedQ k v w)); [reflexivity|reflexivity|].
      intros k Hk _. apply (hand_holds o k y2 y1 u2 u1 v' q v w 1 3); auto; try lra.
    - destruct (side_text l a Hl) as (_ & T1 & y1 & E1 & H1), (side_text r s Hr) as (_ & T2 & y2 & E2 & H2).
      apply bool_is. rewrite Hb. cbn [means1]. unfold compares. rewrite there_app, T1, T2, E1, E2. cbn [andb].
      apply (cop_cases (fun k => cmpHolds o k y1 y2) p (fun k => orderedText k a s)); [reflexivity|reflexivity|].
      intros k Hk _. apply ascii_holds; auto. exact prints.
    - apply bool_is. rewrite Hb. now apply words_equal.
    - apply bool_is. rewrite Hb. rewrite <- (words_equal l d r a s) by auto. cbn [means1]. destruct (compares _ _ _ _ _ _); split; intro X; auto; try discriminate; now destruct X.
    - destruct (side_date l st z Hl) as (T1 & E1 & _), (side_date r st' z' Hr) as (T2 & E2 & _).
      apply bool_is. rewrite Hb. cbn [means1]. unfold compares. rewrite there_app, T1, T2, E1, E2. cbn [andb].
      apply (cop_cases (fun k => cmpHolds o k (plain (VTime (instant st z))) (plain (VTime (instant st' z')))) p (fun k => ordered k (instant st z) (instant st' z'))); [reflexivity|reflexivity|].
      intros k Hk _. now apply time_holds.
    - cbn [means1 fieldS sideVal fmathVal sideFields fmathFields app]. unfold compares, fieldVal, negated, SText.there. cbn [forallb]. rewrite NF, (found _ _ HV).
      inversion HB; subst; destruct c; reflexivity.
    - cbn [means1 fieldS sideVal fmathVal sideFields fmathFields app]. unfold compares, fieldVal, negated, SText.there. cbn [forallb]. rewrite NF, (found _ _ HV).
      inversion HB; subst; destruct c; reflexivity.
    - destruct (word_after s (if neg then - z else z)%Z HW) as [EC _].
      assert (forall k, compares o doc k (sideFields (fieldS f) ++ []) (sideVal o doc (fieldS f)) (sideVal o doc (SValue (VNum (NInt neg z)))) = cmpHolds o k (plain (VBinString s)) (FV (VInt (if neg then - z else z)%Z) true)) as EK.
      { intro k. unfold compares, SText.there. cbn [fieldS sideVal fmathVal sideFields fmathFields app forallb]. unfold fieldVal, negated. rewrite NF, (found _ _ HV), (name_val o t y s HX). reflexivity. }
      cbn [means1]. change (sideFields (SValue (VNum (NInt neg z)))) with (@nil field). destruct p; rewrite EK; cbn [cmpHolds]; unfold equals; rewrite EC; reflexivity.
    - destruct (word_after s (if neg then - z else z)%Z HW) as [_ EC].
      assert (forall k, compares o doc k ([] ++ sideFields (fieldS f)) (sideVal o doc (SValue (VNum (NInt neg z)))) (sideVal o doc (fieldS f)) = cmpHolds o k (FV (VInt (if neg then - z else z)%Z) true) (plain (VBinString s))) as EK.
      { intro k. unfold compares, SText.there. cbn [fieldS sideVal fmathVal sideFields fmathFields app forallb]. unfold fieldVal, negated. rewrite NF, (found _ _ HV), (name_val o t y s HX). reflexivity. }
      cbn [means1]. change (sideFields (SValue (VNum (NInt neg z)))) with (@nil field). destruct p; rewrite EK; cbn [cmpHolds]; unfold equals; rewrite EC; reflexivity.
    - assert (forall k, compares o doc k (sideFields (fieldS f) ++ []) (sideVal o doc (fieldS f)) (sideVal o doc (SValue (VStr s))) = cmpHolds o k (plain (VInt (parseInt y))) (FV (VJsonString (quote o s)) true)) as EK.
      { intro k. unfold compares, SText.there. cbn [fieldS sideVal fmathVal sideFields fmathFields app forallb]. unfold fieldVal, negated. rewrite NF, (found _ _ HV). reflexivity. }
      apply bool_is. rewrite Hb. cbn [means1]. change (sideFields (SValue (VStr s))) with (@nil field). rewrite !EK.
      apply (cop_cases (fun k => cmpHolds o k (plain (VInt (parseInt y))) (FV (VJsonString (quote o s)) true)) p (fun k => orderedText k y s)); [reflexivity|reflexivity|].
      intros k Hk _. apply int_text; auto.
    - assert (SText.there doc (sideFields l ++ sideFields r) = false) as T.
      { unfold SText.there. destruct (forallb _ _) eqn:E; auto. rewrite forallb_forall in E. specialize (E f HI). now rewrite (lost _ HX) in E. }
      cbn [means1]. unfold compares. rewrite T. destruct p; reflexivity.
    - cbn [means1]. unfold SText.there. cbn [forallb]. now rewrite (found _ _ HV).
    - cbn [means1]. unfold SText.there. cbn [forallb]. now rewrite (lost _ HX).
    - cbn [means1 fieldS sideFields fmathFields]. unfold SText.there. cbn [forallb]. rewrite (lost _ HX). now destruct neg.
    - cbn [means1 fieldS sideFields fmathFields]. unfold SText.there. cbn [forallb]. rewrite (found _ _ HV). now destruct neg.
    - cbn [means1 fieldS sideVal fmathVal sideFields fmathFields]. unfold compares, fieldVal, negated, SText.there. cbn [forallb]. rewrite NF, (found _ _ HV). now destruct neg.
    - cbn [means1 fieldS sideFields fmathFields]. unfold compares, SText.there. cbn [forallb]. rewrite (lost _ HX). now destruct neg.
    - cbn [means1 fieldS sideVal fmathVal sideFields fmathFields]. unfold compares, fieldVal, negated, SText.there. cbn [forallb]. rewrite NF, (found _ _ HV).
      cbn [andb]. destruct (valOf o w) as [y| | |] eqn:E; try (now destruct neg). destruct (not_null w y E HB) as [N U]. unfold const. cbn [constRef newFastVal isString cmpHolds].
      rewrite (null_equal y N U). now destruct neg.
    - reflexivity.
  Qed.

  (** Such tests are accepted, build and run. *)
  Lemma bare_facts : forall l, bareSide l -> sideLits l /\ sideOk o x l /\ sideRun l /\ sideWork l = [] /\ (List.length (sideFields l) <= 1)%nat.
  Proof. intros l [f NF|v HV|u b]; cbn; auto 6. unfold fieldWork. rewrite NF. auto. Qed.
  Lemma sides_free : forall l r, bareSide l -> bareSide r -> apartSides l r -> prefix_free (map fieldPath (sideFields l ++ sideFields r)).
  Proof.
    intros l r [f NF|v HV|u b] [g NG|v' HV'|u' b'] HA; cbn [fieldS sideFields fmathFields app map]; try apply lone_path; try solve [intros p k t []].
    apply two_paths. apply HA; now left.
  Qed.
  Lemma solid_filled : forall p, filled doc p.
  Proof. intros p w E. apply solid_empty. eapply solid_at; eauto. Qed.
  Lemma states_good : forall t b, states doc t b -> basicLits t /\ basicOk o x t /\ basicBuilds o x t /\ basicRun t /\ fits doc t.
  Proof.
    assert (forall l p r, bareSide l -> bareSide r -> apartSides l r ->
      basicLits (BCmp l p r) /\ basicOk o x (BCmp l p r) /\ basicBuilds o x (BCmp l p r) /\ basicRun (BCmp l p r) /\ fits doc (BCmp l p r)) as C.
    { intros l p r Bl Br HA. destruct (bare_facts l Bl) as (A1 & A2 & A3 & A4 & _), (bare_facts r Br) as (B1 & B2 & B3 & B4 & _).
      split; [now split|]. split; [now split|]. split; [split; [exact I|now apply sides_free]|]. split; [now split|].
      split; [intros; apply solid_filled|]. split; [intros _; now apply solid_empty|]. intros _ f HF. cbn [workFields] in HF. rewrite A4, B4 in HF. destruct HF. }
    assert (forall f w, apartSides (fieldS f) (SBool w true) /\ apartSides (fieldS f) (SBool w false)) as AB by (intros f w; split; intros g h _ []).
    assert (forall f, fl_neg f = false -> (forall g, In g (sideWork (fieldS f)) -> at_ (fieldPath g) doc <> None)) as W.
    { intros f NF g HG. cbn in HG. unfold fieldWork in HG. rewrite NF in HG. destruct HG. }
    intros t b H. destruct H as [l p r v w b HA Hl Hr Mv Mw Hb|l p r v w b HA Hl Hr Mw Hb|l p r v w b HA Hl Hr Mv Hb|l p r a s b HA Hl Hr Ta Ts Hb|l d r a s b HA Hl Hr Ba Bs Hb|l d r a s b HA Hl Hr Ba Bs Hb|l p r st z st' z' b HA Hl Hr Hb|f t y a d u c NF HV HB|f t y a d u c NF HV HB|f t y s p neg z NF HV HX HW HZ|f t y s p neg z NF HV HX HW HZ|f y s p b NF HV HX HR H0 HS Hb|l p r f HA Bl Br HI HX
      |f w HV|f HX|neg f NF HX|neg f w NF HV|neg f y NF HV|neg f NF HX|neg f w NF HV HB|u].
    - apply C; auto; [now apply (side_near l v)|now apply (side_near r w)].
    - destruct (side_total l v Hl) as (_ & _ & _ & A1 & A3 & A4 & A5 & A6), (side_near r w Hr Mw) as (Br & _). destruct (bare_facts r Br) as (B1 & B2 & B3 & B4 & B5).
      split; [now split|]. split; [split; [destruct Hl; cbn; auto|exact B2]|]. split; [split; [exact I|]|].
      + cbn [basicFields]. apply paths_apart. intros p1 p2 I1 I2 D. apply in_map_iff in I1 as (f & <- & I1), I2 as (g & <- & I2). apply in_app_iff in I1, I2.
        assert (f <> g) as D' by congruence. destruct I1 as [I1|I1], I2 as [I2|I2]; auto; [now apply apart_sym, HA|].
        destruct (sideFields r) as [|h [|? ?]]; [destruct I1| |cbn in B5; lia]. destruct I1 as [<-|[]], I2 as [<-|[]]. now destruct D'.
      + split; [now split|]. split; [intros; apply solid_filled|]. split; [intros _; now apply solid_empty|]. intros _ f HF. cbn [workFields] in HF. rewrite A5, B4, app_nil_r in HF. auto.
    - destruct (side_total r w Hr) as (_ & _ & _ & A1 & A3 & A4 & A5 & A6), (side_near l v Hl Mv) as (Bl & _). destruct (bare_facts l Bl) as (B1 & B2 & B3 & B4 & B5).
      split; [now split|]. split; [split; [exact B2|destruct Hr; cbn; auto]|]. split; [split; [exact I|]|].
      + cbn [basicFields]. apply paths_apart. intros p1 p2 I1 I2 D. apply in_map_iff in I1 as (f & <- & I1), I2 as (g & <- & I2). apply in_app_iff in I1, I2.
        assert (f <> g) as D' by congruence. destruct I1 as [I1|I1], I2 as [I2|I2]; auto; [|now apply apart_sym, HA].
        destruct (sideFields l) as [|h [|? ?]]; [destruct I1| |cbn in B5; lia]. destruct I1 as [<-|[]], I2 as [<-|[]]. now destruct D'.
      + split; [now split|]. split; [intros; apply solid_filled|]. split; [intros _; now apply solid_empty|]. intros _ f HF. cbn [workFields] in HF. rewrite A5, B4 in HF. auto.
    - apply C; auto; [now apply (side_text l a)|now apply (side_text r s)].
    - apply C; auto; [now apply (side_text l a)|now apply (side_text r s)].
    - apply C; auto; [now apply (side_text l a)|now apply (side_text r s)].
    - destruct (side_date l st z Hl) as (_ & _ & A1 & A2 & A3 & A4 & A5 & A6), (side_date r st' z' Hr) as (_ & _ & B1 & B2 & B3 & B4 & B5 & B6).
      split; [now split|]. split; [now split|]. split; [split; [exact I|]|].
      + cbn [basicFields]. unfold apartSides in HA. destruct (sideFields l) as [|f [|? ?]]; [| |cbn in A6; lia]; (destruct (sideFields r) as [|g [|? ?]]; [| |cbn in B6; lia]);
          cbn [app map]; try apply lone_path; try solve [intros q k t []]. apply two_paths. apply HA; now left.
      + split; [now split|]. split; [intros; apply solid_filled|]. split; [intros _; now apply solid_empty|]. intros _ f HF. cbn [workFields] in HF. rewrite A5, B5 in HF.
        apply in_app_iff in HF as [HF|HF]; auto.
    - apply C; [now constructor|constructor|destruct c; apply AB].
    - apply C; [now constructor|constructor|destruct c; apply AB].
    - apply C; [now constructor|constructor; exact HZ|intros g h _ []].
    - apply C; [constructor; exact HZ|now constructor|intros g h []].
    - apply C; [now constructor|constructor; exact I|intros g h _ []].
    - now apply C.
    - repeat split; try exact I; try (apply lone_path); try (intros; apply solid_filled); try discriminate. intros (q1 & q2 & [<-|[]] & [<-|[]] & D). now destruct D.
    - repeat split; try exact I; try (apply lone_path); try (intros; apply solid_filled); try discriminate. intros (q1 & q2 & [<-|[]] & [<-|[]] & D). now destruct D.
    - repeat split; try exact I; try (apply lone_path); try (intros; apply solid_filled); try discriminate. intros _. now apply W.
    - repeat split; try exact I; try (apply lone_path); try (intros; apply solid_filled); try discriminate. intros _. now apply W.
    - repeat split; try exact I; try (apply lone_path); try (intros; apply solid_filled); try discriminate. intros _. now apply W.
    - repeat split; try exact I; try (apply lone_path); try (intros; apply solid_filled); try discriminate. intros _. now apply W.
    - repeat split; try exact I; try (apply lone_path); try (intros; apply solid_filled); try discriminate. intros _. now apply W.
    - repeat split; try exact I. intros p k t [].
  Qed.
End Tests.

(** From the words of the filter and the text of the document to the answer: every test
    counts as what it says, and the filter as its tests. *)
Theorem C81_says : forall L ftxt intOf floatOf o x f sb w1 doc w2, (1 <= l_look L)%nat ->
  allBasic (basicSafe ftxt intOf floatOf (l_look L)) f -> parsesDecimals o -> libraries o ->
  allBasic (fun t => states doc t (sb t)) f ->
  ws w1 -> wf_cst doc -> ws w2 -> named doc -> container doc -> TMatch.solid doc ->
  exists t D m, parseTokens L intOf floatOf (wFilter ftxt f) = Ok t /\ filterMatcher o x t = Ok (D, m) /\ ready o D m /\
  forall s0, ready o D s0 -> exists f0, forall fuel, (f0 <= fuel)%nat -> exists s,
    match_ fuel o D (doc_text w1 doc w2) s0 = Ok (s, Some (filterOutcome sb f)).
Proof.
  intros L ftxt intOf floatOf o x f sb w1 doc w2 HK HS HP HL HT W1 WD W2 HN HC HO.
  assert (allBasic (fun t => basicLits t /\ basicOk o x t /\ basicBuilds o x t /\ basicRun t /\ fits doc t) f) as G.
  { apply (all_imp (fun t => states doc t (sb t))); auto. intros t. now apply states_good. }
  rewrite <- (outcome_means o x doc sb f); [|apply (all_imp (fun t => states doc t (sb t))); auto; intros t; now apply states_means].
  apply C62_match; auto using named_distinct; (eapply all_imp; [|exact G]); intros t; cbn beta; tauto.
Qed.
(** No test says two things. *)
Theorem C81_decided : forall o doc t b b', parsesDecimals o -> libraries o -> wf_cst doc -> named doc -> states doc t b -> states doc t b' -> b = b'.
Proof. intros o doc t b b' HP HL WD HN H H'. rewrite <- (states_means o noEnv doc HP HL WD HN t b H). now apply (states_means o noEnv doc). Qed.

(** Libraries as assumed, both for numbers and for dates. *)
Definition bothOracle : oracles :=
  {| o_parseFloat := o_parseFloat numOracle; o_fmtE := o_fmtE noOracle; o_isPrint := o_isPrint dateOracle; o_delX := true; o_parseRFC3339 := o_parseRFC3339 dateOracle;
     o_f2i := o_f2i noOracle; o_f2u := o_f2u noOracle; o_fun1 := o_fun1 noOracle; o_fun2 := o_fun2 noOracle; o_regex := o_regex noOracle; o_pcre := o_pcre noOracle;
     o_regexCompiles := o_regexCompiles noOracle; o_pcreCompiles := o_pcreCompiles noOracle |}.
(** [a < 1 AND NOT EXISTS ( c ) OR b IS MISSING] of [{"a":0.1,"b":0.2}]. *)
Definition exW : tfilter :=
  FOr (FAnd (TCond (cmpE (fs "a") OLt (vi 1))) [TCond (CNot (CBasic (BExists (fd "c"))))]) [FAnd (TCond (CBasic (BMissing false (fs "b")))) []].
Definition exOut (t : tbasic) : bool := match t with BCmp _ _ _ => true | _ => false end.
Example C81_case : (forall L, (1 <= l_look L)%nat -> allBasic (basicSafe exTxt exInt exFloat (l_look L)) exW)
  /\ wFilter exTxt exW = lex "a < 1 AND NOT EXISTS ( c ) OR b IS MISSING"
  /\ allBasic (fun t => states docS t (exOut t)) exW /\ filterOutcome exOut exW = true
  /\ wf_cst docS /\ named docS /\ container docS /\ TMatch.solid docS /\ parsesDecimals bothOracle /\ libraries bothOracle.
Proof.
  destruct C80_case as (_ & WD & HN & HC & HO). assert (parsesDecimals bothOracle) as HP by exact C70_libraries. assert (libraries bothOracle) as HL by exact C69_libraries.
  split; [|split; [vm_compute; reflexivity|split; [|split; [reflexivity|auto 8]]]].
  - intros L HK. unfold exW. cbn [allBasic allConj allTerm allCond cmpE SGrammar.basicSafe]. unfold lhsSafe, rhsSafe, fieldSafe, mathSafe, bareValue.
    repeat match goal with |- _ /\ _ => split end; try exact I; try (vm_compute; congruence); try (intros; reflexivity); cbn; repeat split; try discriminate; try reflexivity.
  - cbn [allBasic allConj allTerm allCond exW cmpE]. split; [split; [|split; [|exact I]]|split; [split; [|exact I]|exact I]].
    + apply (st_numbers docS (fs "a") OLt (vi 1) (decimal [48%N] [49]%N 0) 1).
      * intros f g _ [].
      * apply (qu_field docS (fd "a") TNumber (s2b "0.1"%string)); [reflexivity| |].
        -- econstructor; [|constructor]. apply (ch_mem _ _ (mb "a"%string (lit "0.1"))); [now left|exact (ni_plain (s2b "a"%string))].
        -- apply nl_dec. apply (num_pos [48%N] [46; 49]%N [49]%N [] 0); [constructor|constructor; [split; discriminate|constructor]|constructor].
      * apply (qu_int docS false 1). lia.
      * split; [exists 100000%Z; reflexivity|vm_compute; discriminate].
      * split; [exists 1000000%Z; reflexivity|vm_compute; discriminate].
      * split; [intros _; vm_compute; reflexivity|reflexivity].
    + apply (st_exists_not docS (fd "c")). intros w HV. apply C19_paths in HV; auto. vm_compute in HV. discriminate.
    + apply (st_missing_not docS false (fd "b") (lit "0.2")); [reflexivity|].
      econstructor; [|constructor]. apply (ch_mem _ _ (mb "b"%string (lit "0.2"))); [right; now left|exact (ni_plain (s2b "b"%string))].
Qed.
(** [DATE ( a ) < DATE ( "2020-02" )] of [{"a":"2020-01-31 10:20:30"}]. *)
Definition exD : tbasic := BCmp (dateOfArg (AField (FPlain (fd "a")))) OLt (dateOfArg (AValue (VStr (s2b "2020-02"%string)))).
Example C81_date_case : let doc := docA "2020-01-31 10:20:30" in (forall L, (1 <= l_look L)%nat -> basicSafe exTxt exInt exFloat (l_look L) exD)
  /\ wFilter exTxt (one (CBasic exD)) = lex "DATE ( a ) < DATE ( ""2020-02"" )"
  /\ states doc exD true /\ wf_cst doc /\ named doc /\ container doc /\ TMatch.solid doc.
Proof.
  intro doc. destruct (docA_ok "2020-01-31 10:20:30" (s2b "2020-01-31 10:20:30"%string)) as (W & NM & V); [reflexivity|vm_compute; reflexivity|].
  split; [|split; [vm_compute; reflexivity|split; [|split; [exact W|split; [exact NM|split; [exact I|vm_compute; repeat split; discriminate]]]]]].
  - intros L HL. unfold exD. cbn [SGrammar.basicSafe]. unfold lhsSafe, rhsSafe, fieldSafe, mathSafe, bareValue.
    repeat match goal with |- _ /\ _ => split end; try exact I; try (vm_compute; congruence); try (intros; reflexivity); cbn; repeat split; try discriminate; try reflexivity.
  - apply (st_dates doc _ OLt _ tA Zulu (Stamp 2020 2 1 0 0 0) Zulu).
    + intros f g _ [].
    + eapply (mo_field doc (fd "a")); [reflexivity|exact V|apply ni_plain|]. apply (dl_clock tA 0); [now right|]. repeat split; cbn; lia.
    + apply mo_const. apply (iso_month 2020 2); [now right|lia].
    + split; [intros _; vm_compute; reflexivity|reflexivity].
Qed.
(** [a + b = 0.3] of [{"a":0.1,"b":0.2}], whose doubles add to another double than that of 0.3. *)
Definition exS : tbasic := BCmp (SField (FTwo (fd "a") SText.Plus (fd "b"))) (OEq false) (SValue (VNum (NFloat false f03))).
Example C81_sum_case : let txt := fun _ => s2b "0.3"%string in (forall L, (1 <= l_look L)%nat -> basicSafe txt exInt (fun _ => Some f03) (l_look L) exS)
  /\ wFilter txt (one (CBasic exS)) = lex "a + b = 0.3"
  /\ states docS exS true /\ wf_cst docS /\ named docS /\ container docS /\ TMatch.solid docS.
Proof.
  intro txt. destruct C80_case as (_ & WD & HN & HC & HO). split; [|split; [vm_compute; reflexivity|split; [|auto]]].
  - intros L HL. unfold exS. cbn [SGrammar.basicSafe]. unfold lhsSafe, rhsSafe, fieldSafe, mathSafe, bareValue.
    repeat match goal with |- _ /\ _ => split end; try exact I; try (vm_compute; congruence); try (intros; reflexivity); cbn; repeat split; try discriminate; try reflexivity.
  - assert (quantity docS (fs "a") (decimal [48%N] [49]%N 0)) as QA.
    { apply (qu_field docS (fd "a") TNumber (s2b "0.1"%string)); [reflexivity| |].
      - econstructor; [|constructor]. apply (ch_mem _ _ (mb "a"%string (lit "0.1"))); [now left|exact (ni_plain (s2b "a"%string))].
      - apply nl_dec. apply (num_pos [48%N] [46; 49]%N [49]%N [] 0); [constructor|constructor; [split; discriminate|constructor]|constructor]. }
    assert (quantity docS (fs "b") (decimal [48%N] [50]%N 0)) as QB.
    { apply (qu_field docS (fd "b") TNumber (s2b "0.2"%string)); [reflexivity| |].
      - econstructor; [|constructor]. apply (ch_mem _ _ (mb "b"%string (lit "0.2"))); [right; now left|exact (ni_plain (s2b "b"%string))].
      - apply nl_dec. apply (num_pos [48%N] [46; 50]%N [50]%N [] 0); [constructor|constructor; [split; discriminate|constructor]|constructor]. }
    assert (apart (fieldPath (fd "a")) (fieldPath (fd "b"))) as AP by (intros c r; split; discriminate).
    apply (st_sum docS _ (OEq false) _ (joinedQ SText.Plus (decimal [48%N] [49]%N 0) (decimal [48%N] [50]%N 0)) (3 # 10)).
    + intros f g _ [].
    + apply ta_two; auto. split; (split; [|vm_compute; discriminate]); [exists 100000%Z|exists 200000%Z]; reflexivity.
    + apply (qu_float docS false). destruct (Z2f_exact 3 ltac:(lia)) as [F3 V3], (Z2f_exact 10 ltac:(lia)) as [F10 V10].
      assert (fdiv (Z2f 3) (Z2f 10) = f03) as <- by (vm_compute; reflexivity). apply (nearest_eqv _ (valQ (Z2f 3) / valQ (Z2f 10))); [rewrite V3, V10; reflexivity|].
      apply fdiv_nearest; auto; [rewrite V10; discriminate|rewrite V3, V10; vm_compute; reflexivity].
    + split; [exists 300000%Z; reflexivity|vm_compute; discriminate].
    + split; [intros _; vm_compute; reflexivity|reflexivity].
Qed.
(** [- a < 0 AND 1 > ABS ( b )] of the same document. *)
Definition exN : tfilter := FOr (FAnd (TCond (cmpE (fieldS (Field true (nm "a") [])) OLt (vi 0))) [TCond (cmpE (vi 1) OGt (SCall (COne false NAbs (AField (FPlain (fd "b"))))))]) [].
Example C81_minus_case : (forall L, (1 <= l_look L)%nat -> allBasic (basicSafe exTxt exInt exFloat (l_look L)) exN)
  /\ wFilter exTxt exN = lex "- a < 0 AND 1 > ABS ( b )" /\ allBasic (fun t => states docS t true) exN.
Proof.
  split; [|split; [vm_compute; reflexivity|]].
  - intros L HL. unfold exN. cbn [allBasic allConj allTerm allCond cmpE SGrammar.basicSafe]. unfold lhsSafe, rhsSafe, fieldSafe, mathSafe, bareValue.
    repeat match goal with |- _ /\ _ => split end; try exact I; try (vm_compute; congruence); try (intros; reflexivity); cbn; repeat split; try discriminate; try reflexivity.
  - cbn [allBasic allConj allTerm allCond exN cmpE]. split; [split; [|split; [|exact I]]|exact I].
    + apply (st_sum docS _ OLt (vi 0) (- decimal [48%N] [49]%N 0) 0).
      * intros f g _ [].
      * apply (ta_minus docS (Field true (nm "a") []) TNumber (s2b "0.1"%string)); [reflexivity| | |].
        -- econstructor; [|constructor]. apply (ch_mem _ _ (mb "a"%string (lit "0.1"))); [now left|exact (ni_plain (s2b "a"%string))].
        -- apply nl_dec. apply (num_pos [48%N] [46; 49]%N [49]%N [] 0); [constructor|constructor; [split; discriminate|constructor]|constructor].
        -- split; [exists 100000%Z; reflexivity|vm_compute; discriminate].
      * apply (qu_int docS false 0). lia.
      * split; [exists 0%Z; reflexivity|vm_compute; discriminate].
      * split; [intros _; vm_compute; reflexivity|reflexivity].
    + apply (st_sum_right docS (vi 1) OGt _ 1 (Qabs (decimal [48%N] [50]%N 0))).
      * intros f g [].
      * apply (qu_int docS false 1). lia.
      * apply (ta_abs docS (fd "b") TNumber (s2b "0.2"%string)); [reflexivity| | |].
        -- econstructor; [|constructor]. apply (ch_mem _ _ (mb "b"%string (lit "0.2"))); [right; now left|exact (ni_plain (s2b "b"%string))].
        -- apply nl_dec. apply (num_pos [48%N] [46; 50]%N [50]%N [] 0); [constructor|constructor; [split; discriminate|constructor]|constructor].
        -- split; [exists 200000%Z; reflexivity|vm_compute; discriminate].
      * split; [exists 1000000%Z; reflexivity|vm_compute; discriminate].
      * split; [intros _; vm_compute; reflexivity|reflexivity].
Qed.
(** [a > 5] of [{"a":"4x"}]: a string that is no integer comes after every integer. *)
Definition exK : tbasic := BCmp (fs "a") OGt (vi 5).
Example C81_kind_case : let doc := docA "4x" in (forall L, (1 <= l_look L)%nat -> basicSafe exTxt exInt exFloat (l_look L) exK)
  /\ wFilter exTxt (one (CBasic exK)) = lex "a > 5" /\ states doc exK true /\ wf_cst doc /\ named doc /\ container doc /\ TMatch.solid doc.
Proof.
  intro doc. destruct (docA_ok "4x" (s2b "4x"%string)) as (W & NM & V); [reflexivity|vm_compute; reflexivity|].
  split; [|split; [vm_compute; reflexivity|split; [|split; [exact W|split; [exact NM|split; [exact I|vm_compute; repeat split; discriminate]]]]]].
  - intros L HL. unfold exK. cbn [SGrammar.basicSafe]. unfold lhsSafe, rhsSafe, fieldSafe, mathSafe, bareValue.
    repeat match goal with |- _ /\ _ => split end; try exact I; try (vm_compute; congruence); try (intros; reflexivity); cbn; repeat split; try discriminate; try reflexivity.
  - eapply (st_word_int doc (fd "a") _ _ _ OGt false 5); [reflexivity|exact V|apply ni_plain| |lia]. exists 120%N. split; [right; now left|]. split; [lia|split; discriminate].
Qed.
(** [a < "5"] of [{"a":10}]: an integer of the document and a string constant are compared
    as texts. *)
Definition exT : tbasic := BCmp (fs "a") OLt (SValue (VStr (s2b "5"%string))).
Definition docTen : cst := obj [("a"%string, lit "10")].
Example C81_int_case : wFilter exTxt (one (CBasic exT)) = lex "a < ""5""" /\ states docTen exT true /\ wf_cst docTen /\ named docTen /\ container docTen /\ TMatch.solid docTen.
Proof.
  split; [vm_compute; reflexivity|]. split; [|split; [apply wfb_ok; vm_compute; reflexivity|split; [|split; [exact I|vm_compute; repeat split; discriminate]]]].
  - apply (st_int_text docTen (fd "a") (s2b "10"%string) (s2b "5"%string) OLt true); [reflexivity| | |split; vm_compute; congruence|discriminate| |].
    + econstructor; [|constructor]. apply (ch_mem _ _ (mb "a"%string (lit "10"))); [now left|exact (ni_plain (s2b "a"%string))].
    + apply ip_pos. apply np_pos; [split; discriminate|constructor; [split; discriminate|constructor]].
    + constructor; [|constructor]. split; [split; vm_compute; congruence|split; discriminate].
    + split; [intros _; cbn [copk orderedText]|reflexivity]. constructor. reflexivity.
  - constructor.
    + intros m [<-|[]]. exists (s2b "a"%string). exact (ni_plain (s2b "a"%string)).
    + intros i j m m' k Hi Hj A B. destruct i as [|i], j as [|j]; auto; try (destruct i; discriminate Hi); destruct j; discriminate Hj.
    + intros m [<-|[]]. constructor.
Qed.

Print Assumptions C81_says.
Print Assumptions C81_decided.
