(** Expressions in JSON syntax: final statements (C39, C40, C52). *)
From Coq Require Import String.
From Verif Require Import Base MTokenizer MLit MFastVal SEvents MExpr MTransform MExprJson SExprJson SExamples.
From Coq Require Import List NArith ZArith Arith Lia Bool Floats.SpecFloat.
Import ListNotations.
Open Scope nat_scope.

Section JvInd.
  Variable P : jv -> Prop.
  Hypothesis Hn : P JNull.
  Hypothesis Hb : forall b, P (JBool b).
  Hypothesis Hf : forall f, P (JNum f).
  Hypothesis Hs : forall s, P (JStr s).
  Hypothesis Ha : forall l, Forall P l -> P (JArr l).
  Hypothesis Ho : forall m, P (JObj m).
  Fixpoint jv_ind' (v : jv) : P v :=
    match v with
    | JNull => Hn | JBool b => Hb b | JNum f => Hf f | JStr s => Hs s
    | JArr l => Ha l ((fix go (l : list jv) : Forall P l :=
        match l with [] => Forall_nil _ | x :: r => Forall_cons x (jv_ind' x) (go r) end) l)
    | JObj m => Ho m
    end.
End JvInd.
Scheme written_mind := Induction for written Sort Prop
  with writtenAll_mind := Induction for writtenAll Sort Prop.
Combined Scheme written_mutind from written_mind, writtenAll_mind.
Scheme reads_mind := Induction for reads Sort Prop
  with readsAll_mind := Induction for readsAll Sort Prop.
Combined Scheme reads_mutind from reads_mind, readsAll_mind.

(** A string is a valid time: RFC 3339, or a date in one of the three ISO 8601 forms. *)
Definition timeValid (o : oracles) (s : bytes) : Prop :=
  (exists z, o_parseRFC3339 o s = Some z) \/ iso8601Year s = true \/ iso8601YearAndMonth s = true \/ iso8601CompleteDate s = true.

Lemma validTime_ok : forall o s, validTime o s = true <-> timeValid o s.
Proof.
  intros o s. unfold validTime, timeValid. destruct (o_parseRFC3339 o s) as [z|].
  - split; eauto.
  - rewrite !orb_true_iff. split; [tauto|]. intros [[z E]|X]; [discriminate E|tauto].
Qed.
Lemma bytes_eqb_eq : forall a b, bytes_eqb a b = true -> a = b.
Proof. induction a; destruct b; cbn; intros; try discriminate; auto. apply andb_true_iff in H as [E H]. apply N.eqb_eq in E. f_equal; auto. Qed.
Lemma kw_ok : forall s k, isKw s k = true -> s = s2b k.
Proof. intros. now apply bytes_eqb_eq. Qed.

Lemma pathOf_ok : forall q, pathOf (map JStr q) = Ok q.
Proof. induction q; cbn; auto. now rewrite IHq. Qed.
Lemma pathOf_inv : forall l p, pathOf l = Ok p -> l = map JStr p.
Proof.
  induction l as [|x r IH]; cbn; intros p E; [now injection E as <-|].
  destruct x; try discriminate E. destruct (pathOf r) eqn:Er; try discriminate E. cbn in E. injection E as <-. cbn. now rewrite (IH a).
Qed.

(** ** Acceptance *)
Lemma reads_arr : forall V T v p, reads V T v p -> isArr v = true.
Proof. intros V T v p HR. destruct HR; reflexivity. Qed.

Lemma parse_reads : forall o,
  (forall v p, reads (timeValid o) (f2i o) v p -> parseSub o v = Ok p)
  /\ (forall vs ps, readsAll (timeValid o) (f2i o) vs ps -> parseParams (parseSub o) vs = Ok ps /\ parseList (parseSub o) vs = Ok ps).
Proof.
  intros o. apply (reads_mutind (timeValid o) (f2i o) (fun v p _ => parseSub o v = Ok p)
    (fun vs ps _ => parseParams (parseSub o) vs = Ok ps /\ parseList (parseSub o) vs = Ok ps)).
  all: intros; cbn [parseSub].
  - reflexivity.
  - match goal with H : timeValid _ _ |- _ => apply validTime_ok in H; cbn; unfold parseTime; now rewrite H end.
  - cbn. unfold parseTime. destruct x; try reflexivity. now destruct (n s).
  - reflexivity.
  - change (isKw (s2b "field") "value") with false. change (isKw (s2b "field") "field") with true. cbn [parseField map].
    change (JStr c :: map JStr q) with (map JStr (c :: q)). now rewrite pathOf_ok.
  - change (isKw (s2b "field") "value") with false. change (isKw (s2b "field") "field") with true. cbn [parseField]. now rewrite pathOf_ok.
  - change (parseFunc (parseSub o) (JStr n :: vs) = Ok (PFunc n ps)). destruct H as [H _]. cbn [parseFunc]. now rewrite H.
  - change (parseFunc (parseSub o) (v :: vs) = Ok (PFunc [] (p :: ps))). destruct H0 as [H0 _].
    pose proof (reads_arr _ _ _ _ r) as Hv.
    assert (parseFunc (parseSub o) (v :: vs) = do ps <- parseParams (parseSub o) (v :: vs); Ok (PFunc [] ps)) as E by (destruct v; try discriminate Hv; reflexivity).
    rewrite E. cbn [parseParams]. now rewrite Hv, H, H0.
  - change (parseOne (parseSub o) (v :: t) PNot = Ok (PNot p)). cbn [parseOne]. now rewrite (reads_arr _ _ _ _ r), H.
  - change ((do l <- parseList (parseSub o) vs; Ok (PAnd l)) = Ok (PAnd ps)). destruct H as [_ H]. now rewrite H.
  - change ((do l <- parseList (parseSub o) vs; Ok (POr l)) = Ok (POr ps)). destruct H as [_ H]. now rewrite H.
  - change (parseOne (parseSub o) (v :: t) PExists = Ok (PExists p)). cbn [parseOne]. now rewrite (reads_arr _ _ _ _ r), H.
  - change (parseOne (parseSub o) (v :: t) PNotExists = Ok (PNotExists p)). cbn [parseOne]. now rewrite (reads_arr _ _ _ _ r), H.
  - assert (parseComparison (parseSub o) (v :: w :: t) (PCmp k) = Ok (PCmp k p q)) as X
      by (cbn [parseComparison]; now rewrite (reads_arr _ _ _ _ r), (reads_arr _ _ _ _ r0), H, H0).
    destruct k; exact X.
  - assert (parseLoop o (parseSub o) (JNum f :: v :: w :: t) m = Ok (PLoop m (f2i o f) p q)) as X
      by (cbn [parseLoop]; now rewrite (reads_arr _ _ _ _ r), (reads_arr _ _ _ _ r0), H, H0).
    destruct m; exact X.
  - split; reflexivity.
  - destruct H0 as [A B]. cbn [parseParams parseList]. now rewrite (reads_arr _ _ _ _ r), H, A, B.
Qed.

Ltac obd H x := match type of H with obind ?a _ = Ok _ => let E := fresh "E" in destruct a as [x| | |] eqn:E; cbn [obind] in H; try discriminate H end.

Lemma reads_parse : forall o v p, parseSub o v = Ok p -> reads (timeValid o) (f2i o) v p.
Proof.
  intros o v. induction v as [| | | |l IH|] using jv_ind'; intros p E; try discriminate E.
  destruct l as [|[| | |kw| |] args]; try discriminate E. inversion IH as [|? ? _ IHa]; subst. clear IH. cbn [parseSub] in E.
  assert (forall l, Forall (fun v => forall p, parseSub o v = Ok p -> reads (timeValid o) (f2i o) v p) l ->
    (forall ps, parseParams (parseSub o) l = Ok ps -> readsAll (timeValid o) (f2i o) l ps)) as XP.
  { intros l HF. induction HF as [|x r Hx Hr IH]; cbn [parseParams]; intros ps E'; [injection E' as <-; constructor|].
    destruct (isArr x); try discriminate E'. obd E' a. obd E' b. injection E' as <-. constructor; auto. }
  assert (forall l, Forall (fun v => forall p, parseSub o v = Ok p -> reads (timeValid o) (f2i o) v p) l ->
    (forall ps, parseList (parseSub o) l = Ok ps -> readsAll (timeValid o) (f2i o) l ps)) as XL.
  { intros l HF. induction HF as [|x r Hx Hr IH]; cbn [parseList]; intros ps E'; [injection E' as <-; constructor|].
    destruct (isArr x); try discriminate E'. obd E' a. obd E' b. injection E' as <-. constructor; auto. }
  assert (forall k, parseComparison (parseSub o) args (PCmp k) = Ok p -> reads (timeValid o) (f2i o) (JArr (word (cmpWord k) :: args)) p) as XC.
  { intros k E'. unfold parseComparison in E'. destruct args as [|x [|y t]]; [discriminate E'|destruct (isArr x); discriminate E'|].
    destruct (isArr x); [|discriminate E']. destruct (isArr y); [|discriminate E']. obd E' a. obd E' b. injection E' as <-.
    inversion IHa as [|? ? H1 H2]; subst. inversion H2; subst. constructor; auto. }
  assert (forall m, parseLoop o (parseSub o) args m = Ok p -> reads (timeValid o) (f2i o) (JArr (word (loopWord m) :: args)) p) as XO.
  { intros m E'. unfold parseLoop in E'. destruct args as [|[| |f| | |] [|x [|y t]]]; try discriminate E'; [destruct (isArr x); discriminate E'|].
    destruct (isArr x); [|discriminate E']. destruct (isArr y); [|discriminate E']. obd E' a. obd E' b. injection E' as <-.
    inversion IHa as [|? ? H1 H2]; subst. inversion H2 as [|? ? H3 H4]; subst. inversion H4; subst. constructor; auto. }
  assert (forall f, parseOne (parseSub o) args f = Ok p -> exists v t q, args = v :: t /\ reads (timeValid o) (f2i o) v q /\ p = f q) as X1.
  { intros f E'. unfold parseOne in E'. destruct args as [|x t]; [discriminate E'|]. destruct (isArr x); [|discriminate E']. obd E' a. injection E' as <-.
    inversion IHa; subst. exists x, t, a. auto. }
  repeat match type of E with (if isKw kw ?k then _ else _) = _ => let EK := fresh "EK" in destruct (isKw kw k) eqn:EK; [apply kw_ok in EK; subst kw|clear EK] end.
  - destruct args as [|x t]; [discriminate E|]. injection E as <-. constructor.
  - unfold parseField in E. destruct args as [|x t]; [discriminate E|]. destruct x; try (cbn in E; discriminate E).
    + obd E q. injection E as <-. apply pathOf_inv in E0. subst t. constructor.
    + obd E q. injection E as <-. apply pathOf_inv in E0. rewrite E0. destruct q; [discriminate E0|]. constructor.
  - unfold parseFunc in E. destruct args as [|x t]; [discriminate E|].
    destruct x; try (cbn in E; discriminate E).
    + obd E ps. injection E as <-. inversion IHa; subst. constructor. now apply XP.
    + obd E ps. injection E as <-. specialize (XP _ IHa _ E0). inversion XP; subst. now constructor.
  - destruct (X1 _ E) as (v & t & q & -> & HR & ->). now constructor.
  - obd E ps. injection E as <-. constructor. now apply XL.
  - obd E ps. injection E as <-. constructor. now apply XL.
  - exact (XO _ E).
  - exact (XO _ E).
  - exact (XO _ E).
  - destruct (X1 _ E) as (v & t & q & -> & HR & ->). now constructor.
  - destruct (X1 _ E) as (v & t & q & -> & HR & ->). now constructor.
  - exact (XC _ E).
  - exact (XC _ E).
  - exact (XC _ E).
  - exact (XC _ E).
  - exact (XC _ E).
  - exact (XC _ E).
  - exact (XC _ E).
  - destruct args as [|x t]; [discriminate E|]. injection E as <-. constructor.
  - unfold parseTime in E. destruct args as [|x t]; [discriminate E|]. destruct x; try (injection E as <-; constructor; intros; discriminate).
    destruct (validTime o s) eqn:EV; [|discriminate E]. injection E as <-. constructor. now apply validTime_ok.
  - discriminate E.
Qed.

(** A decoded value is accepted, as the expression [p], exactly if it is [p] in the
    syntax (entries beyond the operands are ignored). *)
Theorem C39_accepts_exactly : forall o v p, parseJson o v = Ok p <-> reads (timeValid o) (f2i o) v p.
Proof.
  intros o v p. split.
  - destruct v; cbn [parseJson]; intros E; try discriminate E. now apply reads_parse.
  - intros HR. pose proof (proj1 (parse_reads o) _ _ HR) as E. destruct HR; exact E.
Qed.

(** ** Round trip *)
Lemma isNat_f2i : forall o f n, isNat f n -> f2i o f = Z.of_nat n.
Proof.
  intros o f n [HR HN]. unfold f2i, truncF. destruct f as [s| | |s m e]; try contradiction.
  - subst n. reflexivity.
  - destruct s; try contradiction.
    assert ((if (0 <=? e)%Z then (Z.pos m * 2 ^ e)%Z else (Z.pos m / 2 ^ (- e))%Z) = Z.of_nat n) as ->.
    { destruct (Z.leb_spec 0 e); [now symmetry|]. rewrite <- HN. apply Z.div_mul. assert (0 < 2 ^ (- e))%Z by (apply Z.pow_pos_nonneg; lia). lia. }
    replace ((minInt64 <=? Z.of_nat n)%Z && (Z.of_nat n <=? maxInt64)%Z) with true; [reflexivity|].
    symmetry. apply andb_true_iff. rewrite !Z.leb_le. unfold minInt64, maxInt64. change (2 ^ 63)%Z with 9223372036854775808%Z in HR. lia.
Qed.
Definition toExprs := fix go (l : list pexpr) : option (list expr) :=
  match l with [] => Some [] | x :: r => match toExpr x, go r with Some e, Some es => Some (e :: es) | _, _ => None end end.

Lemma written_reads : forall o,
  (forall e v, written (timeValid o) e v -> exists p, reads (timeValid o) (f2i o) v p /\ toExpr p = Some e)
  /\ (forall es vs, writtenAll (timeValid o) es vs -> exists ps, readsAll (timeValid o) (f2i o) vs ps /\ toExprs ps = Some es).
Proof.
  intros o. assert (forall n, (Z.of_nat n <? 0)%Z = false) as HZ by (intro; apply Z.ltb_ge; lia).
  apply (written_mutind (timeValid o) (fun e v _ => exists p, reads (timeValid o) (f2i o) v p /\ toExpr p = Some e)
    (fun es vs _ => exists ps, readsAll (timeValid o) (f2i o) vs ps /\ toExprs ps = Some es)).
  - eexists; split; constructor.
  - eexists; split; constructor.
  - eexists; split; constructor.
  - eexists; split; constructor.
  - intros s HV. eexists; split; [now apply r_time|reflexivity].
  - intros s. eexists; split; [apply r_regex|reflexivity].
  - intros c q. eexists; split; [apply r_doc|reflexivity].
  - intros f r q HN. eexists; split; [apply r_field|]. cbn [toExpr]. rewrite (isNat_f2i o f r HN), HZ, Nat2Z.id. reflexivity.
  - intros n es vs _ (ps & HR & HE). eexists; split; [apply r_func; exact HR|]. cbn [toExpr]. fold toExprs. now rewrite HE.
  - intros e v _ (p & HR & HE). eexists; split; [apply r_not; exact HR|]. cbn [toExpr]. now rewrite HE.
  - intros es vs _ (ps & HR & HE). eexists; split; [apply r_and; exact HR|]. cbn [toExpr]. fold toExprs. now rewrite HE.
  - intros es vs _ (ps & HR & HE). eexists; split; [apply r_or; exact HR|]. cbn [toExpr]. fold toExprs. now rewrite HE.
  - intros e v _ (p & HR & HE). eexists; split; [apply r_exists; exact HR|]. cbn [toExpr]. now rewrite HE.
  - intros e v _ (p & HR & HE). eexists; split; [apply r_notexists; exact HR|]. cbn [toExpr]. now rewrite HE.
  - intros k l r v w _ (p & HR & HE) _ (q & HR' & HE'). eexists; split; [apply r_cmp; [exact HR|exact HR']|]. cbn [toExpr]. now rewrite HE, HE'.
  - intros m f x i s v w HN _ (p & HR & HE) _ (q & HR' & HE'). eexists; split; [apply r_loop; [exact HR|exact HR']|].
    cbn [toExpr]. now rewrite (isNat_f2i o f x HN), HZ, Nat2Z.id, HE, HE'.
  - eexists; split; [constructor|reflexivity].
  - intros e v es vs _ (p & HR & HE) _ (ps & HR' & HE'). exists (p :: ps). split; [now constructor|]. cbn [toExprs]. now rewrite HE, HE'.
Qed.

(** Every expression written in the syntax is read back as itself. *)
Theorem C39_roundtrip : forall o e v, written (timeValid o) e v -> exists p, parseJson o v = Ok p /\ toExpr p = Some e.
Proof.
  intros o e v HW. destruct (proj1 (written_reads o) e v HW) as (p & HR & HE). exists p. split; [now apply C39_accepts_exactly|exact HE].
Qed.
(** So no text stands for two expressions. *)
Theorem C39_unambiguous : forall o e e' v, written (timeValid o) e v -> written (timeValid o) e' v -> e = e'.
Proof.
  intros o e e' v H1 H2. destruct (C39_roundtrip o e v H1) as (p & E & F). destruct (C39_roundtrip o e' v H2) as (p' & E' & F'). congruence.
Qed.

(** ** C40 *)
Lemma parse_fuel_free : forall o v, parseSub o v <> OutOfFuel.
Proof.
  intros o v. induction v as [| | | |l IH|] using jv_ind'; try discriminate.
  destruct l as [|[| | |kw| |] args]; try discriminate. inversion IH as [|? ? _ IHa]; subst. clear IH. cbn [parseSub].
  assert (parseParams (parseSub o) args <> OutOfFuel /\ parseList (parseSub o) args <> OutOfFuel /\ parseParams (parseSub o) (tl args) <> OutOfFuel) as (XP & XL & XT).
  { assert (forall l, Forall (fun v => parseSub o v <> OutOfFuel) l -> parseParams (parseSub o) l <> OutOfFuel /\ parseList (parseSub o) l <> OutOfFuel) as Y.
    { intros l HF. induction HF as [|x r Hx Hr [I1 I2]]; cbn [parseParams parseList]; [split; discriminate|].
      destruct (isArr x); [|split; discriminate]. destruct (parseSub o x); try (split; discriminate); try contradiction. cbn [obind].
      split; [destruct (parseParams (parseSub o) r)|destruct (parseList (parseSub o) r)]; try discriminate; try contradiction. }
    split; [|split]; try apply Y; auto. destruct args; [constructor|]. inversion IHa; subst. assumption. }
  assert (forall f, parseOne (parseSub o) args f <> OutOfFuel) as X1.
  { intros f. unfold parseOne. destruct args as [|x t]; [discriminate|]. destruct (isArr x); [|discriminate]. inversion IHa; subst.
    destruct (parseSub o x); try discriminate; contradiction. }
  assert (forall f, parseComparison (parseSub o) args f <> OutOfFuel) as XC.
  { intros f. unfold parseComparison. destruct args as [|x [|y t]]; [discriminate|destruct (isArr x); discriminate|]. destruct (isArr x); [|discriminate]. destruct (isArr y); [|discriminate].
    inversion IHa as [|? ? H1 H2]; subst. inversion H2; subst. destruct (parseSub o x); try discriminate; try contradiction. cbn [obind]. destruct (parseSub o y); try discriminate; contradiction. }
  assert (forall m, parseLoop o (parseSub o) args m <> OutOfFuel) as XO.
  { intros m. unfold parseLoop. destruct args as [|[| |f| | |] [|x [|y t]]]; try discriminate; [destruct (isArr x); discriminate|]. destruct (isArr x); [|discriminate]. destruct (isArr y); [|discriminate].
    inversion IHa as [|? ? H1 H2]; subst. inversion H2 as [|? ? H3 H4]; subst. inversion H4; subst. destruct (parseSub o x); try discriminate; try contradiction. cbn [obind]. destruct (parseSub o y); try discriminate; contradiction. }
  assert (forall l, pathOf l <> OutOfFuel) as XQ.
  { induction l as [|x r I]; cbn [pathOf]; [discriminate|]. destruct x; try discriminate. destruct (pathOf r); try discriminate; contradiction. }
  repeat match goal with |- (if isKw kw ?k then _ else _) <> _ => destruct (isKw kw k) end; auto; try discriminate.
  - destruct args; discriminate.
  - unfold parseField. destruct args as [|x t]; [discriminate|]. destruct x; try discriminate;
      match goal with |- obind (pathOf ?l) _ <> _ => pose proof (XQ l); destruct (pathOf l); try discriminate; contradiction end.
  - unfold parseFunc. destruct args as [|x t]; [discriminate|]. cbn [tl] in XT. destruct x; try (destruct (parseParams (parseSub o) (_ :: t)); try discriminate; contradiction);
      match goal with |- obind (parseParams _ ?l) _ <> _ => destruct (parseParams (parseSub o) l); try discriminate; contradiction end.
  - destruct (parseList (parseSub o) args); try discriminate; contradiction.
  - destruct (parseList (parseSub o) args); try discriminate; contradiction.
  - destruct args; discriminate.
  - unfold parseTime. destruct args as [|x t]; [discriminate|]. destruct x; try discriminate. destruct (validTime o s); discriminate.
Qed.

Lemma shaped_go : forall l, (fix go l := match l with [] => True | x :: r => shaped x /\ go r end) l -> Forall shaped l.
Proof. induction l; intros; constructor; intuition. Qed.
Lemma shaped_safe : forall o v, shaped v -> parseSub o v <> Panic.
Proof.
  intros o v. induction v as [| | | |l IH|] using jv_ind'; intros HS; try discriminate.
  destruct l as [|[| | |kw| |] args]; try discriminate; [contradiction HS|]. inversion IH as [|? ? _ IHa]; subst. clear IH.
  destruct HS as (HA & HF & HG). cbn [parseSub].
  assert (flat kw = false -> Forall (fun v => parseSub o v <> Panic) args) as HP.
  { intro E. specialize (shaped_go _ (HG E)). intros X. rewrite Forall_forall in X, IHa. apply Forall_forall. auto. }
  assert (flat kw = false -> parseList (parseSub o) args <> Panic) as XL.
  { intros E. specialize (HP E). clear - HP. induction HP as [|x r Hx Hr I]; cbn [parseList]; [discriminate|].
    destruct (isArr x); [|discriminate]. destruct (parseSub o x); try discriminate; try contradiction. cbn [obind]. destruct (parseList (parseSub o) r); try discriminate; contradiction. }
  assert (forall l, Forall (fun v => parseSub o v <> Panic) l -> Forall (fun x => exists l, x = JArr l) l -> parseParams (parseSub o) l <> Panic) as XP.
  { intros l H1 H2. induction H1 as [|x r Hx Hr I]; cbn [parseParams]; [discriminate|]. inversion H2 as [|? ? (y & ->) H3]; subst. specialize (I H3). cbn [isArr].
    destruct (parseSub o (JArr y)); try discriminate; try contradiction. cbn [obind]. destruct (parseParams (parseSub o) r); try discriminate; contradiction. }
  assert (forall f, flat kw = false -> 1 <= length args -> parseOne (parseSub o) args f <> Panic) as X1.
  { intros f E HL. specialize (HP E). unfold parseOne. destruct args as [|x t]; [cbn in HL; lia|]. destruct (isArr x); [|discriminate]. inversion HP; subst.
    destruct (parseSub o x); try discriminate; contradiction. }
  assert (forall f, flat kw = false -> 2 <= length args -> parseComparison (parseSub o) args f <> Panic) as XC.
  { intros f E HL. specialize (HP E). unfold parseComparison. destruct args as [|x [|y t]]; [cbn in HL; lia|cbn in HL; lia|]. destruct (isArr x); [|discriminate]. destruct (isArr y); [|discriminate].
    inversion HP as [|? ? H1 H2]; subst. inversion H2; subst. destruct (parseSub o x); try discriminate; try contradiction. cbn [obind]. destruct (parseSub o y); try discriminate; contradiction. }
  assert (forall m, flat kw = false -> 3 <= length args -> parseLoop o (parseSub o) args m <> Panic) as XO.
  { intros m E HL. specialize (HP E). unfold parseLoop. destruct args as [|[| |f| | |] [|x [|y t]]]; cbn [length] in HL; try lia; try discriminate. destruct (isArr x); [|discriminate]. destruct (isArr y); [|discriminate].
    inversion HP as [|? ? H1 H2]; subst. inversion H2 as [|? ? H3 H4]; subst. inversion H4; subst. destruct (parseSub o x); try discriminate; try contradiction. cbn [obind]. destruct (parseSub o y); try discriminate; contradiction. }
  assert (forall l, pathOf l <> Panic) as XQ.
  { induction l as [|x r I]; cbn [pathOf]; [discriminate|]. destruct x; try discriminate. destruct (pathOf r); try discriminate; contradiction. }
  repeat match goal with |- (if isKw kw ?k then _ else _) <> _ => let EK := fresh "EK" in destruct (isKw kw k) eqn:EK; [apply kw_ok in EK; subst kw|clear EK] end;
    try discriminate; try (apply X1; [reflexivity|exact HA]); try (apply XC; [reflexivity|exact HA]); try (apply XO; [reflexivity|exact HA]).
  - destruct args; [cbn in HA; lia|discriminate].
  - unfold parseField. destruct args as [|x t]; [cbn in HA; lia|]. destruct x; try discriminate;
      match goal with |- obind (pathOf ?l) _ <> _ => pose proof (XQ l); destruct (pathOf l); try discriminate; contradiction end.
  - specialize (HF eq_refl). specialize (HP eq_refl). unfold parseFunc. destruct args as [|x t]; [cbn in HA; lia|]. inversion HP; subst.
    destruct x; try (cbn [params] in HF; inversion HF as [|? ? (y & EY) H3]; discriminate EY).
    + specialize (XP t H2 HF). destruct (parseParams (parseSub o) t); try discriminate; contradiction.
    + specialize (XP _ HP HF). destruct (parseParams (parseSub o) (JArr l :: t)); try discriminate; contradiction.
  - specialize (XL eq_refl). destruct (parseList (parseSub o) args); try discriminate; contradiction.
  - specialize (XL eq_refl). destruct (parseList (parseSub o) args); try discriminate; contradiction.
  - destruct args; [cbn in HA; lia|discriminate].
  - unfold parseTime. destruct args as [|x t]; [cbn in HA; lia|]. destruct x; try discriminate. destruct (validTime o s); discriminate.
Qed.

(** Parsing answers with an expression or an error whenever every array standing for
    an expression is not empty and has the operands its word needs, and the parameters
    of functions are arrays. *)
Theorem C40_shaped_answers : forall o v, shaped v -> v <> JNull -> parseJson o v = Err \/ exists p, parseJson o v = Ok p.
Proof.
  intros o v HS HN. destruct v; try (left; reflexivity); [contradiction|]. cbn [parseJson].
  pose proof (shaped_safe o _ HS). pose proof (parse_fuel_free o (JArr l)). destruct (parseSub o (JArr l)); eauto; contradiction.
Qed.
(** Without operands every word that needs some crashes it, and so do empty arrays
    and null. *)
Theorem C40_short_refuted : forall o kw, arity kw <> 0 -> parseJson o (JArr [JStr kw]) = Panic.
Proof.
  intros o kw HA. unfold arity in HA. cbn [parseJson parseSub].
  repeat match goal with |- (if isKw kw ?k then _ else _) = _ => let EK := fresh "EK" in destruct (isKw kw k) eqn:EK; [apply kw_ok in EK; subst kw; first [reflexivity | now destruct HA]|unfold isKw in EK; try rewrite EK in HA; clear EK] end.
  now destruct HA.
Qed.
Theorem C40_empty_refuted : forall o, parseJson o (JArr []) = Panic /\ parseJson o JNull = Panic
  /\ parseJson o (JArr [word "and"; JArr []]) = Panic.
Proof. intro o. repeat split; reflexivity. Qed.
Theorem C40_func_refuted : forall o n, parseJson o (JArr [word "func"; JStr n; JNum (S754_zero false)]) = Panic.
Proof. reflexivity. Qed.

(** ** C52: times *)
Lemma transform_time : forall o s, transform o [XCmp CEq (fld 0 ["a"%string]) (XTime s)] = Panic <-> getNewTime o s = None.
Proof.
  intros o s.
  assert (transform o [XCmp CEq (fld 0 ["a"%string]) (XTime s)] =
    match getNewTime o s with Some z => transform (o) [XCmp CEq (fld 0 ["a"%string]) (XTime s)] | None => Panic end) as E.
  { destruct (getNewTime o s) eqn:G; [reflexivity|]. cbv -[getNewTime]. rewrite G. reflexivity. }
  destruct (getNewTime o s) eqn:G; [|now rewrite E].
  split; [|discriminate]. intros X. exfalso. revert X. cbv -[getNewTime]. rewrite G. discriminate.
Qed.
Lemma iso_short : forall s, iso8601Year s = true \/ iso8601YearAndMonth s = true \/ iso8601CompleteDate s = true -> length s <= 10.
Proof.
  intros s X. do 11 (destruct s as [|? s]; [cbn; lia|]). destruct X as [X|[X|X]]; discriminate X.
Qed.
(** An accepted time in RFC 3339 proper compiles ... *)
Theorem C52_time_compiles : forall o s z, o_parseRFC3339 o s = Some z -> 10 < length s ->
  parseJson o (JArr [word "time"; JStr s]) = Ok (PTime (JStr s)) /\ transform o [XCmp CEq (fld 0 ["a"%string]) (XTime s)] <> Panic.
Proof.
  intros o s z E HL. split.
  - apply C39_accepts_exactly. constructor. left. eauto.
  - intros X. apply transform_time in X. unfold getNewTime, isoToRfc in X. pose proof (iso_short s) as Y.
    destruct (iso8601Year s); [lia|]. destruct (iso8601YearAndMonth s); [lia|]. destruct (iso8601CompleteDate s); [lia|]. congruence.
Qed.
(** ... but a date with slashes is accepted, and crashes compiling, if the library
    (as it should) refuses it with a time of day appended. *)
Theorem C52_time_refuted : forall o, o_parseRFC3339 o (s2b "2018/02/03T00:00:00Z") = None ->
  exists v p e, parseJson o v = Ok p /\ toExpr p = Some e /\ transform o [XCmp CEq (fld 0 ["a"%string]) e] = Panic.
Proof.
  intros o HO. exists (JArr [word "time"; JStr (s2b "2018/02/03")]), (PTime (JStr (s2b "2018/02/03"))), (XTime (s2b "2018/02/03")).
  split; [|split; [reflexivity|]].
  - apply C39_accepts_exactly. constructor. right. right. right. reflexivity.
  - apply transform_time. exact HO.
Qed.

(** ** Cases *)
Definition one : float := S754_finite false 4503599627370496 (-52).
Definition exJ : jv :=
  JArr [word "and"; JArr [word "anyin"; JNum one; JArr [word "field"; word "tags"];
                          JArr [word "equals"; JArr [word "field"; JNum one]; JArr [word "value"; JStr (s2b "x")]]];
        JArr [word "not"; JArr [word "exists"; JArr [word "func"; JStr (s2b "abs"); JArr [word "field"; word "a"; word "b"]]]]].
Definition exX : expr :=
  XAnd [XLoop LAny 1 (fld 0 ["tags"%string]) (XCmp CEq (fld 1 []) (XValue (GString (s2b "x"))));
        XNot (XExists (XFunc (s2b "abs") [fld 0 ["a"%string; "b"%string]]))].
Example C39_case : forall o, written (timeValid o) exX exJ.
Proof.
  intro o. assert (isNat one 1) as N1 by (split; reflexivity).
  apply w_and. constructor; [|constructor; [|constructor]].
  - apply (w_loop _ LAny); [exact N1| |].
    + apply (w_doc _ (s2b "tags") []).
    + apply (w_cmp _ CEq); [|apply w_str]. now apply (w_field _ one 1 []).
  - apply w_not. apply w_exists. apply w_func. constructor; [|constructor]. apply (w_doc _ (s2b "a") [s2b "b"]).
Qed.
Example C40_case : shaped exJ.
Proof. cbn. intuition (try discriminate; try lia). repeat constructor; eauto. Qed.
Example C40_bad_case : forall o, shaped (JArr [word "equals"; JArr [word "field"; JNum one]; JNull]) /\
  parseJson o (JArr [word "equals"; JArr [word "field"; JNum one]; JNull]) = Err.
Proof. intro o. split; [cbn; intuition (try discriminate; try lia)|reflexivity]. Qed.
Print Assumptions C39_accepts_exactly.
Print Assumptions C39_roundtrip.
Print Assumptions C40_shaped_answers.
Print Assumptions C52_time_compiles.
