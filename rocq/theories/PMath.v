(** Proofs about arithmetic (MMath.v). *)
From Verif Require Import Base MTokenizer MLit MFastVal MMath SNum.
From Coq Require Import List NArith ZArith Arith Lia Bool.
From Coq Require Import ZifyBool ZifyN ZifyNat.
From Coq Require Import Floats.SpecFloat.
Import ListNotations.
Open Scope Z_scope.

Lemma wrap64_reduced : forall e, reduced (- 2 ^ 63) e (wrap64 e).
Proof.
  intro e. unfold reduced, wrap64. pose proof (Z.mod_pos_bound (e + 2 ^ 63) (2 ^ 64) ltac:(lia)).
  split; [lia|]. exists (- ((e + 2 ^ 63) / 2 ^ 64)).
  pose proof (Z.div_mod (e + 2 ^ 63) (2 ^ 64) ltac:(lia)). lia.
Qed.

Lemma wrapU64_reduced : forall e, reduced 0 e (wrapU64 e).
Proof.
  intro e. unfold reduced, wrapU64. pose proof (Z.mod_pos_bound e (2 ^ 64) ltac:(lia)).
  split; [lia|]. exists (- (e / 2 ^ 64)).
  pose proof (Z.div_mod e (2 ^ 64) ltac:(lia)). lia.
Qed.

Lemma reduced_id : forall lo e, lo <= e < lo + 2 ^ 64 -> reduced lo e e.
Proof. intros. split; [lia|]. exists 0. lia. Qed.

Lemma reduced_exact : forall lo e x, reduced lo e x -> lo <= e < lo + 2 ^ 64 -> x = e.
Proof. intros lo e x [H [k K]] He. assert (k = 0) by lia. lia. Qed.

Lemma wrap64_small : forall z, - 2 ^ 63 <= z < 2 ^ 63 -> wrap64 z = z.
Proof. intros. apply (reduced_exact (- 2 ^ 63)); [apply wrap64_reduced|lia]. Qed.

Lemma wrapU64_small : forall z, 0 <= z < 2 ^ 64 -> wrapU64 z = z.
Proof. intros. apply (reduced_exact 0); [apply wrapU64_reduced|lia]. Qed.

Lemma decVal_nonneg : forall l acc, allDigits l = true -> 0 <= acc -> 0 <= decVal acc l.
Proof.
  induction l as [|c l IH]; cbn [decVal]; intros acc H A; [assumption|]. cbn in H.
  apply andb_true_iff in H as [H1 H2]. apply IH; [assumption|]. unfold isDigit in H1. lia.
Qed.

Lemma parseInt10_range : forall b z, parseInt10 b = (z, true) -> - 2 ^ 63 <= z < 2 ^ 63.
Proof.
  intros b z. unfold parseInt10. destruct b as [|c r]; [discriminate|].
  set (body := if _ || _ then r else c :: r). destruct body as [|d body'] eqn:Eb; [discriminate|].
  destruct (allDigits (d :: body')) eqn:A; [|discriminate].
  pose proof (decVal_nonneg _ 0 A ltac:(lia)) as P. set (x := decVal 0 (d :: body')) in *.
  unfold maxInt64. destruct (c =? 45)%N.
  - destruct (Z.leb_spec x (2 ^ 63)); intro E; inversion E; lia.
  - destruct (Z.leb_spec x (2 ^ 63 - 1)); intro E; inversion E; lia.
Qed.

Lemma parseUint10_range : forall b n, parseUint10 b = (n, true) -> 0 <= n < 2 ^ 64.
Proof.
  intros b n. unfold parseUint10. destruct b as [|c r]; [discriminate|].
  destruct (allDigits (c :: r)) eqn:A; [|discriminate].
  pose proof (decVal_nonneg _ 0 A ltac:(lia)) as P. set (x := decVal 0 (c :: r)) in *.
  unfold maxUint64. destruct (Z.leb_spec x (2 ^ 64 - 1)); intro E; inversion E; lia.
Qed.

(** What the conversions return on an integer. *)
Lemma holds_int : forall o v a, holds v a -> isInt v = true ->
  - 2 ^ 63 <= a < 2 ^ 63 /\ asInt o v = (a, true) /\ asUint o v = (if 0 <? a then (a, true) else (0, false)).
Proof.
  intros o v a H I. destruct H; try discriminate I; cbn.
  - repeat split; lia.
  - pose proof (parseInt10_range _ _ H). rewrite H. cbn. repeat split; lia.
Qed.

Lemma holds_uint : forall o v a, holds v a -> isUInt v = true ->
  0 <= a < 2 ^ 64 /\ asUint o v = (a, true) /\
  (a <= maxInt64 -> asInt o v = (a, true)) /\ (maxInt64 < a -> snd (asInt o v) = false).
Proof.
  intros o v a H I. unfold maxInt64. destruct H; try discriminate I; cbn.
  - unfold maxInt64. repeat split; try lia. intro L. rewrite wrap64_small by lia. f_equal. lia.
  - pose proof (parseUint10_range _ _ H). rewrite H. cbn. unfold maxInt64. repeat split; try lia.
    + intro L. destruct (_ <? n) eqn:Q; [lia|]. now rewrite wrap64_small by lia.
    + intro L. destruct (_ <? n) eqn:Q; [reflexivity|lia].
Qed.

Lemma holds_kind : forall v a, holds (fv v) a ->
  (kind v = KInt /\ isInt (fv v) = true /\ isNumeric (fv v) = true) \/
  (kind v = KUint /\ isUInt (fv v) = true /\ isNumeric (fv v) = true).
Proof. intros [v u] a H. cbn in *. unfold kind. cbn. destruct H; auto. Qed.

Definition runOp (o : oracles) (p : aop) (v w : fastval) : outcome fastval :=
  match p with
  | OAdd => mathAdd o v w | OSub => mathSub o v w | OMul => mathMul o v w
  | ODiv => mathDiv o v w | OMod => mathMod o v w
  end.

(** The integer operator for 64-bit signed and unsigned operands. *)
Definition iopOf (p : aop) := match p with OAdd => addInt | OSub => subInt | OMul => mulInt | ODiv => divInt | OMod => modInt end.
Definition uopOf (p : aop) := match p with OAdd => addUint | OSub => subUint | OMul => mulUint | ODiv => divUint | OMod => modUint end.

Lemma quot_bound : forall a b, b <> 0 -> Z.abs (Z.quot a b) <= Z.abs a.
Proof.
  intros a b H. rewrite <- Z.quot_abs by assumption.
  destruct (Z.eq_dec (Z.abs b) 1) as [E|E].
  - rewrite E, Z.quot_1_r. lia.
  - rewrite Z.quot_div_nonneg by lia.
    destruct (Z.eq_dec (Z.abs a) 0) as [->|N]; [rewrite Z.div_0_l; lia|].
    pose proof (Z.div_lt (Z.abs a) (Z.abs b)). lia.
Qed.

Lemma iopOf_reduced : forall p a b r, - 2 ^ 63 <= a < 2 ^ 63 -> - 2 ^ 63 <= b < 2 ^ 63 ->
  iopOf p a b = Some r -> exists e, exact p a b = Some e /\ reduced (- 2 ^ 63) e r.
Proof.
  intros p a b r Ha Hb. destruct p; cbn.
  1-3: intro E; inversion E; eexists; split; [reflexivity|apply wrap64_reduced].
  - unfold divInt. destruct (Z.eqb_spec b 0), (Z.eq_dec b 0); try discriminate; try contradiction.
    intro E; inversion E. eexists; split; [reflexivity|apply wrap64_reduced].
  - unfold modInt. destruct (Z.eqb_spec b 0), (Z.eq_dec b 0); try discriminate; try contradiction.
    intro E; inversion E. eexists; split; [reflexivity|]. apply reduced_id.
    pose proof (Z.rem_bound_abs a b ltac:(assumption)). lia.
Qed.

Lemma uopOf_reduced : forall p a b r, 0 <= a < 2 ^ 64 -> 0 <= b < 2 ^ 64 ->
  uopOf p a b = Some r -> exists e, exact p a b = Some e /\ reduced 0 e r.
Proof.
  intros p a b r Ha Hb. destruct p; cbn.
  1-3: intro E; inversion E; eexists; split; [reflexivity|apply wrapU64_reduced].
  - unfold divUint. destruct (Z.eqb_spec b 0), (Z.eq_dec b 0); try discriminate; try contradiction.
    intro E; inversion E. eexists; split; [reflexivity|]. apply reduced_id.
    pose proof (quot_bound a b ltac:(assumption)). pose proof (Z.quot_pos a b ltac:(lia) ltac:(lia)). lia.
  - unfold modUint. destruct (Z.eqb_spec b 0), (Z.eq_dec b 0); try discriminate; try contradiction.
    intro E; inversion E. eexists; split; [reflexivity|]. apply reduced_id.
    pose proof (Z.rem_bound_pos a b ltac:(lia) ltac:(lia)). lia.
Qed.

(** What a result may be, given the exact result. *)
Definition okResult (p : aop) (a b : Z) (bigMixed : Prop) (r : fastval) : Prop :=
  match fv r with
  | VInt x => exists e, exact p a b = Some e /\ reduced (- 2 ^ 63) e x
  | VUint x => exists e, exact p a b = Some e /\ reduced 0 e x
  | VFloat _ => bigMixed
  | VInvalid => True
  | _ => False
  end.

Lemma generic2Ints_ok : forall o v w p a b B r,
  holds (fv v) a -> holds (fv w) b ->
  generic2Ints o v w (iopOf p) = Ok r -> okResult p a b B r.
Proof.
  intros o v w p a b B r Hv Hw. unfold generic2Ints.
  destruct (asInt o (fv v)) as [a' ok] eqn:Ea, (asInt o (fv w)) as [b' ok2] eqn:Eb.
  destruct (_ || _) eqn:C. { intro E; inversion E. exact I. }
  apply orb_false_iff in C as [C C4]. apply orb_false_iff in C as [C C3].
  assert (Ra : a' = a /\ - 2 ^ 63 <= a < 2 ^ 63).
  { destruct (holds_kind _ _ Hv) as [(_ & K & _)|(_ & K & _)].
    - destruct (holds_int o _ _ Hv K) as (R & E & _). rewrite E in Ea. inversion Ea; subst; split; [reflexivity|lia].
    - destruct (holds_uint o _ _ Hv K) as (R & _ & E & E'). unfold maxInt64 in *.
      destruct (Z_le_gt_dec a (2 ^ 63 - 1)) as [L|L].
      + rewrite E in Ea by assumption. inversion Ea; subst; split; [reflexivity|lia].
      + rewrite Ea in E'. cbn in E'. rewrite E' in C3 by lia. discriminate. }
  assert (Rb : b' = b /\ - 2 ^ 63 <= b < 2 ^ 63).
  { destruct (holds_kind _ _ Hw) as [(_ & K & _)|(_ & K & _)].
    - destruct (holds_int o _ _ Hw K) as (R & E & _). rewrite E in Eb. inversion Eb; subst; split; [reflexivity|lia].
    - destruct (holds_uint o _ _ Hw K) as (R & _ & E & E'). unfold maxInt64 in *.
      destruct (Z_le_gt_dec b (2 ^ 63 - 1)) as [L|L].
      + rewrite E in Eb by assumption. inversion Eb; subst; split; [reflexivity|lia].
      + rewrite Eb in E'. cbn in E'. rewrite E' in C4 by lia. discriminate. }
  destruct Ra as [-> Ra], Rb as [-> Rb].
  destruct (iopOf p a b) eqn:F; [|discriminate]. intro E; inversion E. cbn.
  now apply iopOf_reduced.
Qed.

Lemma generic2Uints_ok : forall o v w p a b B r,
  holds (fv v) a -> holds (fv w) b ->
  generic2Uints o v w (uopOf p) = Ok r -> okResult p a b B r.
Proof.
  intros o v w p a b B r Hv Hw. unfold generic2Uints.
  destruct (asUint o (fv v)) as [a' ok] eqn:Ea, (asUint o (fv w)) as [b' ok2] eqn:Eb.
  destruct (_ || _) eqn:C. { intro E; inversion E. exact I. }
  apply orb_false_iff in C as [C C4]. apply orb_false_iff in C as [C C3].
  assert (G : forall x y k, holds x y -> asUint o x = (k, true) -> k = y /\ 0 <= y < 2 ^ 64).
  { intros x y k H E. assert (K : isInt x = true \/ isUInt x = true) by (destruct H; auto).
    destruct K as [K|K].
    - destruct (holds_int o _ _ H K) as (R & _ & E2). rewrite E2 in E.
      destruct (Z.ltb_spec 0 y); inversion E; subst; split; [reflexivity|lia].
    - destruct (holds_uint o _ _ H K) as (R & E2 & _). rewrite E2 in E. inversion E; subst; split; [reflexivity|lia]. }
  destruct ok; [|discriminate]. destruct ok2; [|discriminate].
  destruct (G _ _ _ Hv Ea) as [-> Ra], (G _ _ _ Hw Eb) as [-> Rb].
  destruct (uopOf p a b) eqn:F; [|discriminate]. intro E; inversion E. cbn.
  now apply uopOf_reduced.
Qed.

Lemma generic2Floats_ok : forall o v w p a b (B : Prop) f r, B ->
  generic2Floats o v w f = Ok r -> okResult p a b B r.
Proof.
  intros o v w p a b B f r HB. unfold generic2Floats.
  destruct (asFloat o (fv v)), (asFloat o (fv w)). destruct (_ || _); intro E; inversion E; cbn; auto.
Qed.

Definition bigMixed (p : aop) (v w : fval) (b : Z) : Prop :=
  (p = OSub \/ p = ODiv) /\ isInt v = true /\ isUInt w = true /\ maxInt64 < b.

Lemma invalid_ok : forall p a b B r, Ok vInvalid = Ok r -> okResult p a b B r.
Proof. intros. inversion H. exact I. Qed.

Lemma addMul_ok : forall o v w p f a b r, (p = OAdd \/ p = OMul) ->
  holds (fv v) a -> holds (fv w) b ->
  addMultShared o v w (iopOf p) (uopOf p) f = Ok r -> okResult p a b (bigMixed p (fv v) (fv w) b) r.
Proof.
  intros o v w p f a b r Hp Hv Hw. unfold addMultShared.
  destruct (holds_kind _ _ Hv) as [(K & I & N)|(K & I & N)];
    destruct (holds_kind _ _ Hw) as [(K' & I' & N')|(K' & I' & N')]; rewrite K, K'.
  - now apply generic2Ints_ok.
  - destruct (asInt o (fv v)) as [i ok]. destruct (negb ok); [now apply invalid_ok|].
    destruct (0 <=? i); [now apply generic2Uints_ok|].
    destruct (asUint o (fv w)) as [u ok1]. destruct (_ || _); [now apply invalid_ok|].
    now apply generic2Ints_ok.
  - destruct (asInt o (fv w)) as [i ok]. destruct (negb ok); [now apply invalid_ok|].
    destruct (0 <=? i); [now apply generic2Uints_ok|].
    destruct (asUint o (fv v)) as [u ok1]. destruct (_ || _); [now apply invalid_ok|].
    now apply generic2Ints_ok.
  - now apply generic2Uints_ok.
Qed.

Lemma sub_ok : forall o v w a b r, holds (fv v) a -> holds (fv w) b ->
  mathSub o v w = Ok r -> okResult OSub a b (bigMixed OSub (fv v) (fv w) b) r.
Proof.
  intros o v w a b r Hv Hw. unfold mathSub.
  change subInt with (iopOf OSub). change subUint with (uopOf OSub).
  destruct (holds_kind _ _ Hv) as [(K & I & N)|(K & I & N)];
    destruct (holds_kind _ _ Hw) as [(K' & I' & N')|(K' & I' & N')]; rewrite K, K'.
  - now apply generic2Ints_ok.
  - destruct (asInt o (fv v)) as [i ok] eqn:Ei.
    destruct (holds_uint o _ _ Hw I') as (R & E & _). rewrite E.
    destruct (_ || _); [now apply invalid_ok|].
    destruct (Z.ltb_spec maxInt64 b).
    { apply generic2Floats_ok. unfold bigMixed. auto. }
    destruct (0 <=? i); [|now apply generic2Ints_ok].
    destruct (_ <? i); [now apply generic2Uints_ok | now apply generic2Ints_ok].
  - destruct (holds_uint o _ _ Hv I) as (R & E & _). rewrite E.
    destruct (holds_int o _ _ Hw I') as (R' & E' & E''). rewrite E'. cbn [negb orb].
    destruct (Z.leb_spec 0 b).
    + destruct (asUint o (fv w)) as [bu ok2]. destruct (negb ok2); [now apply invalid_ok|].
      destruct (a <? bu); [now apply generic2Ints_ok | now apply generic2Uints_ok].
    + unfold generic2Uints. cbn [plain fv]. rewrite E. cbn [asUint].
      destruct (Z.ltb_spec 0 (negateInt b)) as [L|L].
      * destruct (_ || _); [now apply invalid_ok|]. cbn. intro Q; inversion Q. cbn.
        eexists; split; [reflexivity|].
        assert (negateInt b = - b).
        { unfold negateInt in *. destruct (Z.eq_dec b (- 2 ^ 63)) as [->|]; [cbn in L; lia|].
          rewrite wrap64_small; lia. }
        replace (negateInt b) with (- b). replace (a - b) with (a + - b) by lia. apply wrapU64_reduced.
      * destruct (_ || _) eqn:C; [now apply invalid_ok|].
        rewrite !orb_true_r in C. discriminate.
  - destruct (asUint o (fv v)) as [i ok], (asUint o (fv w)) as [j ok1].
    destruct (_ || _); [now apply invalid_ok|].
    destruct (j <=? i); [now apply generic2Uints_ok | now apply generic2Ints_ok].
Qed.

Lemma div_ok : forall o v w a b r, holds (fv v) a -> holds (fv w) b ->
  mathDiv o v w = Ok r -> okResult ODiv a b (bigMixed ODiv (fv v) (fv w) b) r.
Proof.
  intros o v w a b r Hv Hw. unfold mathDiv.
  change divInt with (iopOf ODiv). change divUint with (uopOf ODiv).
  destruct (holds_kind _ _ Hv) as [(K & I & N)|(K & I & N)];
    destruct (holds_kind _ _ Hw) as [(K' & I' & N')|(K' & I' & N')]; rewrite K, ?K'.
  - destruct (asInt o (fv v)) as [i ok]. destruct (negb ok); [now apply invalid_ok|].
    now apply generic2Ints_ok.
  - destruct (asInt o (fv v)) as [i ok]. destruct (negb ok); [now apply invalid_ok|].
    destruct (holds_uint o _ _ Hw I') as (R & E & _). rewrite E. cbn [negb orb].
    destruct ((i <? 0) && (maxInt64 <? b)) eqn:C.
    { apply generic2Floats_ok. unfold bigMixed. repeat split; auto. lia. }
    destruct (0 <=? i); [now apply generic2Uints_ok | now apply generic2Ints_ok].
  - destruct (asInt o (fv w)) as [i ok]. destruct (_ || _); [now apply invalid_ok|].
    destruct (0 <? i); [now apply generic2Uints_ok | now apply generic2Ints_ok].
  - destruct (asUint o (fv w)) as [i ok]. destruct (_ || _); [now apply invalid_ok|].
    now apply generic2Uints_ok.
Qed.

Lemma mod_ok : forall o v w a b r, holds (fv v) a -> holds (fv w) b ->
  mathMod o v w = Ok r -> okResult OMod a b (bigMixed OMod (fv v) (fv w) b) r.
Proof.
  intros o v w a b r Hv Hw. unfold mathMod.
  change modInt with (iopOf OMod). change modUint with (uopOf OMod).
  destruct (holds_kind _ _ Hv) as [(K & I & N)|(K & I & N)];
    destruct (holds_kind _ _ Hw) as [(K' & I' & N')|(K' & I' & N')]; rewrite K, ?K'.
  - destruct (asInt o (fv v)) as [i ok]. destruct (negb ok); [now apply invalid_ok|].
    now apply generic2Ints_ok.
  - destruct (asInt o (fv v)) as [i ok]. destruct (negb ok); [now apply invalid_ok|].
    destruct (asUint o (fv w)) as [j ok1]. destruct (_ || _); [now apply invalid_ok|].
    destruct (0 <=? i); [now apply generic2Uints_ok | now apply generic2Ints_ok].
  - destruct (asInt o (fv w)) as [i ok]. destruct (_ || _); [now apply invalid_ok|].
    destruct (0 <? i); [now apply generic2Uints_ok | now apply generic2Ints_ok].
  - destruct (asUint o (fv w)) as [i ok]. destruct (_ || _); [now apply invalid_ok|].
    now apply generic2Uints_ok.
Qed.

Lemma arith_ok : forall o p v w a b r, holds (fv v) a -> holds (fv w) b ->
  runOp o p v w = Ok r -> okResult p a b (bigMixed p (fv v) (fv w) b) r.
Proof.
  intros o [] v w a b r Hv Hw H.
  - eapply addMul_ok; eauto.
  - eapply sub_ok; eauto.
  - eapply addMul_ok; eauto.
  - eapply div_ok; eauto.
  - eapply mod_ok; eauto.
Qed.

(** ** Completeness: operands that fit in int64 *)

Lemma gi_eq : forall o v w op a b,
  isNumeric (fv v) = true -> isNumeric (fv w) = true ->
  asInt o (fv v) = (a, true) -> asInt o (fv w) = (b, true) ->
  generic2Ints o v w op = match op a b with Some r => Ok (plain (VInt r)) | None => Panic end.
Proof. intros o v w op a b N N' E E'. unfold generic2Ints. now rewrite E, E', N, N'. Qed.

Lemma gu_eq : forall o v w op a b,
  isNumeric (fv v) = true -> isNumeric (fv w) = true ->
  asUint o (fv v) = (a, true) -> asUint o (fv w) = (b, true) ->
  generic2Uints o v w op = match op a b with Some r => Ok (plain (VUint r)) | None => Panic end.
Proof. intros o v w op a b N N' E E'. unfold generic2Uints. now rewrite E, E', N, N'. Qed.

Lemma iop_exact : forall p a b e, exact p a b = Some e -> - 2 ^ 63 <= e < 2 ^ 63 -> iopOf p a b = Some e.
Proof.
  intros [] a b e E R; cbn in *; inversion E; subst; cbn.
  1-3: unfold addInt, subInt, mulInt; now rewrite wrap64_small.
  - unfold divInt. destruct (Z.eq_dec b 0); [discriminate|]. inversion E; subst.
    replace (b =? 0) with false by lia. now rewrite wrap64_small.
  - unfold modInt. destruct (Z.eq_dec b 0); [discriminate|]. inversion E; subst.
    now replace (b =? 0) with false by lia.
Qed.

Lemma uop_exact : forall p a b e, exact p a b = Some e -> 0 <= e < 2 ^ 64 -> uopOf p a b = Some e.
Proof.
  intros [] a b e E R; cbn in *; inversion E; subst; cbn.
  1-3: unfold addUint, subUint, mulUint; now rewrite wrapU64_small.
  - unfold divUint. destruct (Z.eq_dec b 0); [discriminate|]. inversion E; subst.
    now replace (b =? 0) with false by lia.
  - unfold modUint. destruct (Z.eq_dec b 0); [discriminate|]. inversion E; subst.
    now replace (b =? 0) with false by lia.
Qed.

Lemma exact_nonneg : forall p a b e, p <> OSub -> 0 <= a -> 0 <= b -> exact p a b = Some e -> 0 <= e.
Proof.
  intros [] a b e NS A B E; cbn in E; try congruence; try (inversion E; lia).
  - destruct (Z.eq_dec b 0); [discriminate|]. inversion E. apply Z.quot_pos; lia.
  - destruct (Z.eq_dec b 0); [discriminate|]. inversion E. pose proof (Z.rem_bound_pos a b). lia.
Qed.

Definition resultIs (r : outcome fastval) (e : Z) : Prop := exists x, r = Ok x /\ holds (fv x) e.

Lemma gi_result : forall o v w p a b e,
  isNumeric (fv v) = true -> isNumeric (fv w) = true ->
  asInt o (fv v) = (a, true) -> asInt o (fv w) = (b, true) ->
  exact p a b = Some e -> - 2 ^ 63 <= e < 2 ^ 63 ->
  resultIs (generic2Ints o v w (iopOf p)) e.
Proof.
  intros. rewrite (gi_eq o v w _ a b) by assumption. rewrite (iop_exact p a b e) by assumption.
  eexists. split; [reflexivity|]. now constructor.
Qed.

Lemma gu_result : forall o v w p a b e,
  isNumeric (fv v) = true -> isNumeric (fv w) = true ->
  asUint o (fv v) = (a, true) -> asUint o (fv w) = (b, true) ->
  exact p a b = Some e -> 0 <= e < 2 ^ 64 ->
  resultIs (generic2Uints o v w (uopOf p)) e.
Proof.
  intros. rewrite (gu_eq o v w _ a b) by assumption. rewrite (uop_exact p a b e) by assumption.
  eexists. split; [reflexivity|]. now constructor.
Qed.

Lemma arith_complete : forall o p v w a b e,
  holds (fv v) a -> holds (fv w) b ->
  a < 2 ^ 63 -> - 2 ^ 63 < b < 2 ^ 63 ->
  (isInt (fv v) = isInt (fv w) \/ (a <> 0 /\ b <> 0)) ->
  exact p a b = Some e -> - 2 ^ 63 <= e < 2 ^ 63 ->
  resultIs (runOp o p v w) e.
Proof.
  intros o p v w a b e Hv Hw La Lb Z E R.
  assert (Xu : forall x y, holds (fv x) y -> isUInt (fv x) = true -> isInt (fv x) = false)
    by (intros x y H; destruct H; cbn; congruence).
  assert (B0 : p = ODiv \/ p = OMod -> b <> 0).
  { intros [-> | ->] ->; cbn in E; discriminate. }
  destruct (holds_kind _ _ Hv) as [(K & I & N)|(K & I & N)];
    destruct (holds_kind _ _ Hw) as [(K' & I' & N')|(K' & I' & N')].
  - destruct (holds_int o _ _ Hv I) as (Ra & Ea & Ua). destruct (holds_int o _ _ Hw I') as (Rb & Eb & Ub).
    destruct p; cbn [runOp]; unfold mathAdd, mathMul, addMultShared, mathSub, mathDiv, mathMod; rewrite K, ?K', ?Ea; cbn [negb].
    + now apply (gi_result o v w OAdd a b). + now apply (gi_result o v w OSub a b).
    + now apply (gi_result o v w OMul a b). + now apply (gi_result o v w ODiv a b).
    + now apply (gi_result o v w OMod a b).
  - destruct (holds_int o _ _ Hv I) as (Ra & Ea & Ua). destruct (holds_uint o _ _ Hw I') as (Rb & Ub & Eb & _).
    specialize (Eb ltac:(unfold maxInt64; lia)). rewrite I, (Xu w b Hw I') in Z. destruct Z as [Z|[Za Zb]]; [discriminate|].
    assert (M : maxInt64 <? b = false) by (unfold maxInt64; lia).
    assert (Ua' : 0 <= a -> asUint o (fv v) = (a, true)).
    { intro. rewrite Ua. now replace (0 <? a) with true by lia. }
    destruct p; cbn [runOp]; unfold mathAdd, mathMul, addMultShared, mathSub, mathDiv, mathMod;
      rewrite K, ?K', ?Ea; cbn [negb]; rewrite ?Ub, ?M, ?andb_false_r; cbn [negb orb].
    + destruct (Z.leb_spec 0 a); [apply (gu_result o v w OAdd a b)|apply (gi_result o v w OAdd a b)]; auto.
      cbn in E. inversion E. lia.
    + destruct (Z.leb_spec 0 a).
      * rewrite Eb. cbn [fst]. destruct (Z.ltb_spec b a); [apply (gu_result o v w OSub a b)|apply (gi_result o v w OSub a b)]; auto.
        cbn in E. inversion E. lia.
      * apply (gi_result o v w OSub a b); auto.
    + destruct (Z.leb_spec 0 a); [apply (gu_result o v w OMul a b)|apply (gi_result o v w OMul a b)]; auto.
      pose proof (exact_nonneg OMul a b e ltac:(discriminate) ltac:(lia) ltac:(lia) E). lia.
    + destruct (Z.leb_spec 0 a); [apply (gu_result o v w ODiv a b)|apply (gi_result o v w ODiv a b)]; auto.
      pose proof (exact_nonneg ODiv a b e ltac:(discriminate) ltac:(lia) ltac:(lia) E). lia.
    + destruct (Z.leb_spec 0 a); [apply (gu_result o v w OMod a b)|apply (gi_result o v w OMod a b)]; auto.
      pose proof (exact_nonneg OMod a b e ltac:(discriminate) ltac:(lia) ltac:(lia) E). lia.
  - destruct (holds_uint o _ _ Hv I) as (Ra & Ua & Ea & _). destruct (holds_int o _ _ Hw I') as (Rb & Eb & Ub).
    specialize (Ea ltac:(unfold maxInt64; lia)). rewrite I', (Xu v a Hv I) in Z. destruct Z as [Z|[Za Zb]]; [discriminate|].
    assert (M : maxInt64 <? a = false) by (unfold maxInt64; lia).
    assert (Ub' : 0 <= b -> asUint o (fv w) = (b, true)).
    { intro. rewrite Ub. now replace (0 <? b) with true by lia. }
    destruct p; cbn [runOp]; unfold mathAdd, mathMul, addMultShared, mathSub, mathDiv, mathMod;
      rewrite K, ?K', ?Eb; cbn [negb]; rewrite ?Ua, ?M, ?andb_false_r; cbn [negb orb].
    + destruct (Z.leb_spec 0 b); [apply (gu_result o v w OAdd a b)|apply (gi_result o v w OAdd a b)]; auto.
      cbn in E. inversion E. lia.
    + destruct (Z.leb_spec 0 b).
      * rewrite (Ub' H). cbn [negb]. destruct (Z.ltb_spec a b); [apply (gi_result o v w OSub a b)|apply (gu_result o v w OSub a b)]; auto.
        cbn in E. inversion E. lia.
      * assert (Nb : negateInt b = - b) by (unfold negateInt; rewrite wrap64_small; lia).
        cbn in E. inversion E; subst e.
        apply (gu_result o v (plain (VInt (negateInt b))) OAdd a (- b)); auto.
        -- cbn. rewrite Nb. now replace (0 <? - b) with true by lia.
        -- lia.
    + destruct (Z.leb_spec 0 b); [apply (gu_result o v w OMul a b)|apply (gi_result o v w OMul a b)]; auto.
      pose proof (exact_nonneg OMul a b e ltac:(discriminate) ltac:(lia) ltac:(lia) E). lia.
    + replace (b =? 0) with false by lia. cbn [orb].
      destruct (Z.ltb_spec 0 b); [apply (gu_result o v w ODiv a b)|apply (gi_result o v w ODiv a b)]; auto.
      pose proof (exact_nonneg ODiv a b e ltac:(discriminate) ltac:(lia) ltac:(lia) E). lia.
    + replace (b =? 0) with false by lia. cbn [orb].
      destruct (Z.ltb_spec 0 b); [apply (gu_result o v w OMod a b)|apply (gi_result o v w OMod a b)]; auto.
      pose proof (exact_nonneg OMod a b e ltac:(discriminate) ltac:(lia) ltac:(lia) E). lia.
  - destruct (holds_uint o _ _ Hv I) as (Ra & Ua & Ea & _). destruct (holds_uint o _ _ Hw I') as (Rb & Ub & Eb & _).
    specialize (Ea ltac:(unfold maxInt64; lia)). specialize (Eb ltac:(unfold maxInt64; lia)).
    destruct p; cbn [runOp]; unfold mathAdd, mathMul, addMultShared, mathSub, mathDiv, mathMod;
      rewrite K, ?K'; rewrite ?Ua, ?Ub; cbn [negb orb].
    + apply (gu_result o v w OAdd a b); auto. cbn in E. inversion E. lia.
    + destruct (Z.leb_spec b a); [apply (gu_result o v w OSub a b)|apply (gi_result o v w OSub a b)]; auto.
      cbn in E. inversion E. lia.
    + apply (gu_result o v w OMul a b); auto.
      pose proof (exact_nonneg OMul a b e ltac:(discriminate) ltac:(lia) ltac:(lia) E). lia.
    + replace (b =? 0) with false by (specialize (B0 ltac:(auto)); lia).
      apply (gu_result o v w ODiv a b); auto.
      pose proof (exact_nonneg ODiv a b e ltac:(discriminate) ltac:(lia) ltac:(lia) E). lia.
    + replace (b =? 0) with false by (specialize (B0 ltac:(auto)); lia).
      apply (gu_result o v w OMod a b); auto.
      pose proof (exact_nonneg OMod a b e ltac:(discriminate) ltac:(lia) ltac:(lia) E). lia.
Qed.

(** ** Crashes *)

(** Integer contents are 64-bit. *)
Definition in64 (v : fval) : Prop :=
  match v with
  | VInt z => - 2 ^ 63 <= z < 2 ^ 63
  | VUint n => 0 <= n < 2 ^ 64
  | _ => True
  end.

Lemma generic2Floats_total : forall o v w f, generic2Floats o v w f <> Panic.
Proof. intros. unfold generic2Floats. destruct (asFloat o (fv v)), (asFloat o (fv w)). destruct (_ || _); discriminate. Qed.

Lemma asInt_valid_holds : forall o v a, in64 v -> asInt o v = (a, true) -> isNumeric v = true -> holds v a.
Proof.
  intros o v a W E N. destruct v; cbn in *; try discriminate.
  - inversion E as [[E1 E2]]. unfold maxInt64 in E2. rewrite wrap64_small by lia. now constructor.
  - destruct (parseUint10 b) as [p ok] eqn:P. destruct ok; cbn in E.
    + destruct (_ <? p) eqn:M; [discriminate|]. inversion E.
      pose proof (parseUint10_range _ _ P). rewrite wrap64_small by lia. now constructor.
    + discriminate.
  - inversion E; subst. now constructor.
  - constructor. assumption.
Qed.

Lemma asUint_valid_holds : forall o v a, in64 v -> asUint o v = (a, true) -> isInt v = true \/ isUInt v = true -> holds v a.
Proof.
  intros o v a W E N. destruct v; cbn in *; try (destruct N; discriminate).
  - inversion E; subst. now constructor.
  - constructor. assumption.
  - destruct (0 <? z) eqn:L; inversion E; subst. now constructor.
  - destruct (parseInt10 b) as [p ok] eqn:P. destruct ok; cbn in E; [|discriminate].
    destruct (0 <? p); inversion E; subst. now constructor.
Qed.

Lemma gi_panic : forall o v w op, generic2Ints o v w op = Panic ->
  exists a b, asInt o (fv v) = (a, true) /\ asInt o (fv w) = (b, true) /\ op a b = None.
Proof.
  intros o v w op. unfold generic2Ints.
  destruct (asInt o (fv v)) as [a []], (asInt o (fv w)) as [b []]; cbn; rewrite ?orb_true_r; try discriminate.
  destruct (_ || _ || _ || _); [discriminate|]. destruct (op a b) eqn:E; [discriminate|]. eauto.
Qed.

Lemma gu_panic : forall o v w op, generic2Uints o v w op = Panic ->
  exists a b, asUint o (fv v) = (a, true) /\ asUint o (fv w) = (b, true) /\ op a b = None.
Proof.
  intros o v w op. unfold generic2Uints.
  destruct (asUint o (fv v)) as [a []], (asUint o (fv w)) as [b []]; cbn; rewrite ?orb_true_r; try discriminate.
  destruct (_ || _ || _ || _); [discriminate|]. destruct (op a b) eqn:E; [discriminate|]. eauto.
Qed.

Lemma kind_facts : forall v,
  match kind v with
  | KUint => isUInt (fv v) = true /\ isNumeric (fv v) = true /\ isInt (fv v) = false
  | KInt => isInt (fv v) = true /\ isNumeric (fv v) = true /\ isUInt (fv v) = false
  | _ => isInt (fv v) = false /\ isUInt (fv v) = false
  end.
Proof. intros [v u]. unfold kind. cbn. destruct v; cbn; auto. Qed.

Lemma holds_int_or_uint : forall v a, holds v a -> isInt v = true \/ isUInt v = true.
Proof. intros v a H. destruct H; auto. Qed.

Definition crashes (p : aop) (v w : fval) : Prop :=
  (p = ODiv \/ p = OMod) /\ isInt v = true /\
  exists a, holds v a /\ holds w 0 /\ (isInt w = true \/ a <> 0).

Lemma divmod_opnone : forall p a b, (iopOf p a b = None \/ uopOf p a b = None) -> (p = ODiv \/ p = OMod) /\ b = 0.
Proof.
  intros [] a b [H|H]; cbn in H; try discriminate;
    unfold divInt, divUint, modInt, modUint in H; destruct (Z.eqb_spec b 0); try discriminate; auto.
Qed.

Lemma panic_exact : forall o p v w, in64 (fv v) -> in64 (fv w) ->
  (runOp o p v w = Panic <-> crashes p (fv v) (fv w)).
Proof.
  intros o p v w Wv Ww.
  assert (GI : forall q x y, generic2Ints o x y (iopOf q) = Panic -> q = ODiv \/ q = OMod).
  { intros q x y H. destruct (gi_panic _ _ _ _ H) as (a & b & _ & _ & X).
    apply (divmod_opnone q a b). auto. }
  assert (GU : forall q x y, generic2Uints o x y (uopOf q) = Panic -> q = ODiv \/ q = OMod).
  { intros q x y H. destruct (gu_panic _ _ _ _ H) as (a & b & _ & _ & X).
    apply (divmod_opnone q a b). auto. }
  pose proof (kind_facts v) as Fv. pose proof (kind_facts w) as Fw.
  split.
  - (* only if *)
    assert (AM : forall q f, q = OAdd \/ q = OMul -> addMultShared o v w (iopOf q) (uopOf q) f <> Panic).
    { intros q f Hq H. unfold addMultShared in H.
      assert (X : q = ODiv \/ q = OMod).
      { destruct (kind v), (kind w); try discriminate H;
          try (now apply GI in H); try (now apply GU in H);
          try (exfalso; exact (generic2Floats_total _ _ _ _ H)).
        - destruct (asInt o (fv w)) as [i []]; cbn in H; [|discriminate].
          destruct (0 <=? i); [now apply GU in H|].
          destruct (asUint o (fv v)) as [u ok1]. destruct (_ || _); [discriminate|]. now apply GI in H.
        - destruct (asInt o (fv v)) as [i []]; cbn in H; [|discriminate].
          destruct (0 <=? i); [now apply GU in H|].
          destruct (asUint o (fv w)) as [u ok1]. destruct (_ || _); [discriminate|]. now apply GI in H. }
      destruct Hq, X; congruence. }
    intro H. destruct p; cbn [runOp] in H.
    + exfalso. exact (AM OAdd fadd (or_introl eq_refl) H).
    + exfalso. unfold mathSub in H.
      assert (SI : forall x y, generic2Ints o x y subInt <> Panic)
        by (intros x y X; apply (GI OSub) in X; destruct X; discriminate).
      assert (SU : forall x y, generic2Uints o x y subUint <> Panic)
        by (intros x y X; apply (GU OSub) in X; destruct X; discriminate).
      assert (AU : forall x y, generic2Uints o x y addUint <> Panic)
        by (intros x y X; apply (GU OAdd) in X; destruct X; discriminate).
      destruct (kind v), (kind w); try discriminate H;
        try (exact (generic2Floats_total _ _ _ _ H)); try (exact (SI _ _ H)).
      * destruct (asUint o (fv v)), (asUint o (fv w)). destruct (_ || _); [discriminate|].
        destruct (_ <=? _); [exact (SU _ _ H)|exact (SI _ _ H)].
      * destruct (asUint o (fv v)), (asInt o (fv w)). destruct (_ || _); [discriminate|].
        destruct (0 <=? _).
        -- destruct (asUint o (fv w)). destruct (negb _); [discriminate|].
           destruct (_ <? _); [exact (SI _ _ H)|exact (SU _ _ H)].
        -- exact (AU _ _ H).
      * destruct (asInt o (fv v)), (asUint o (fv w)). destruct (_ || _); [discriminate|].
        destruct (maxInt64 <? _); [exact (generic2Floats_total _ _ _ _ H)|].
        destruct (0 <=? _); [destruct (_ <? _)|]; first [exact (SI _ _ H)|exact (SU _ _ H)].
    + exfalso. exact (AM OMul fmul (or_intror eq_refl) H).
    + unfold mathDiv in H. unfold crashes. split; [auto|].
      destruct (kind v) eqn:Kv; try (exfalso; exact (generic2Floats_total _ _ _ _ H)); try discriminate H.
      * exfalso. destruct (kind w); try discriminate H; try (exact (generic2Floats_total _ _ _ _ H)).
        -- destruct (asUint o (fv w)) as [b ok] eqn:Eb. destruct (Z.eqb_spec b 0); [rewrite orb_true_r in H; discriminate|].
           destruct (negb ok); [discriminate|]. cbn in H. apply gu_panic in H as (x & y & _ & E & X).
           rewrite Eb in E. inversion E; subst. unfold divUint in X. destruct (Z.eqb_spec y 0); [auto|discriminate].
        -- destruct (asInt o (fv w)) as [b ok] eqn:Eb. destruct (Z.eqb_spec b 0); [rewrite orb_true_r in H; discriminate|].
           destruct (negb ok) eqn:Ok; [discriminate|]. cbn in H. destruct (Z.ltb_spec 0 b).
           ++ apply gu_panic in H as (x & y & _ & E & X).
              assert (b = y).
              { assert (Hw : holds (fv w) b) by (apply (asInt_valid_holds o); [assumption|rewrite Eb; f_equal; now destruct ok|tauto]).
                destruct (holds_int o _ _ Hw ltac:(tauto)) as (_ & _ & U). rewrite U in E.
                replace (0 <? b) with true in E by lia. now inversion E. }
              subst. unfold divUint in X. destruct (Z.eqb_spec y 0); [auto|discriminate].
           ++ apply gi_panic in H as (x & y & _ & E & X). rewrite Eb in E. inversion E; subst.
              unfold divInt in X. destruct (Z.eqb_spec y 0); [auto|discriminate].
      * destruct Fv as (Iv & Nv & _). split; [assumption|].
        destruct (asInt o (fv v)) as [a ok] eqn:Ea. destruct ok; [|discriminate]. cbn [negb] in H.
        exists a. split; [now apply (asInt_valid_holds o)|].
        destruct (kind w) eqn:Kw; try discriminate H; try (exfalso; exact (generic2Floats_total _ _ _ _ H)).
        -- destruct (asUint o (fv w)) as [b ok1] eqn:Eb. destruct ok1; cbn [negb orb] in H; [|exfalso; exact (generic2Floats_total _ _ _ _ H)].
           assert (Hw : holds (fv w) b) by (apply (asUint_valid_holds o); tauto).
           destruct (_ && _) eqn:C; [exfalso; exact (generic2Floats_total _ _ _ _ H)|].
           destruct (Z.leb_spec 0 a).
           ++ apply gu_panic in H as (x & y & E1 & E2 & X). rewrite Eb in E2. inversion E2; subst.
              apply (or_intror (A:=iopOf ODiv x y = None)) in X. apply (divmod_opnone ODiv x y) in X as [_ ->].
              split; [assumption|]. right. intros ->.
              assert (Hz : holds (fv v) 0) by now apply (asInt_valid_holds o).
              destruct (holds_int o _ _ Hz Iv) as (_ & _ & U). rewrite U in E1. discriminate.
           ++ apply gi_panic in H as (x & y & E1 & E2 & X).
              assert (y = b).
              { destruct (holds_uint o _ _ Hw ltac:(tauto)) as (_ & _ & U1 & U2).
                destruct (Z_le_gt_dec b maxInt64) as [L|L]; [rewrite (U1 L) in E2; now inversion E2|].
                rewrite E2 in U2. cbn in U2. specialize (U2 ltac:(lia)). discriminate. }
              subst. apply (or_introl (B:=uopOf ODiv x b = None)) in X. apply (divmod_opnone ODiv x b) in X as [_ ->].
              split; [assumption|]. right. lia.
        -- apply gi_panic in H as (x & y & E1 & E2 & X).
           apply (or_introl (B:=uopOf ODiv x y = None)) in X. apply (divmod_opnone ODiv x y) in X as [_ ->].
           split; [apply (asInt_valid_holds o); tauto|tauto].
    + unfold mathMod in H. unfold crashes. split; [auto|].
      destruct (kind v) eqn:Kv; try discriminate H.
      * exfalso. destruct (kind w); try discriminate H.
        -- destruct (asUint o (fv w)) as [b ok] eqn:Eb. destruct (Z.eqb_spec b 0); [rewrite orb_true_r in H; discriminate|].
           destruct (negb ok); [discriminate|]. cbn in H. apply gu_panic in H as (x & y & _ & E & X).
           rewrite Eb in E. inversion E; subst. unfold modUint in X. destruct (Z.eqb_spec y 0); [auto|discriminate].
        -- destruct (asInt o (fv w)) as [b ok] eqn:Eb. destruct (Z.eqb_spec b 0); [rewrite orb_true_r in H; discriminate|].
           destruct (negb ok) eqn:Ok; [discriminate|]. cbn in H. destruct (Z.ltb_spec 0 b).
           ++ apply gu_panic in H as (x & y & _ & E & X).
              assert (b = y).
              { assert (Hw : holds (fv w) b) by (apply (asInt_valid_holds o); [assumption|rewrite Eb; f_equal; now destruct ok|tauto]).
                destruct (holds_int o _ _ Hw ltac:(tauto)) as (_ & _ & U). rewrite U in E.
                replace (0 <? b) with true in E by lia. now inversion E. }
              subst. unfold modUint in X. destruct (Z.eqb_spec y 0); [auto|discriminate].
           ++ apply gi_panic in H as (x & y & _ & E & X). rewrite Eb in E. inversion E; subst.
              unfold modInt in X. destruct (Z.eqb_spec y 0); [auto|discriminate].
      * destruct Fv as (Iv & Nv & _). split; [assumption|].
        destruct (asInt o (fv v)) as [a ok] eqn:Ea. destruct ok; [|discriminate]. cbn [negb] in H.
        exists a. split; [now apply (asInt_valid_holds o)|].
        destruct (kind w) eqn:Kw; try discriminate H.
        -- destruct (asUint o (fv w)) as [b ok1] eqn:Eb. destruct ok1; cbn [negb orb] in H; [|discriminate].
           assert (Hw : holds (fv w) b) by (apply (asUint_valid_holds o); tauto).
           destruct (_ && _) eqn:C; [discriminate|].
           destruct (Z.leb_spec 0 a).
           ++ apply gu_panic in H as (x & y & E1 & E2 & X). rewrite Eb in E2. inversion E2; subst.
              apply (or_intror (A:=iopOf OMod x y = None)) in X. apply (divmod_opnone OMod x y) in X as [_ ->].
              split; [assumption|]. right. intros ->.
              assert (Hz : holds (fv v) 0) by now apply (asInt_valid_holds o).
              destruct (holds_int o _ _ Hz Iv) as (_ & _ & U). rewrite U in E1. discriminate.
           ++ apply gi_panic in H as (x & y & E1 & E2 & X).
              assert (y = b).
              { destruct (holds_uint o _ _ Hw ltac:(tauto)) as (_ & _ & U1 & U2).
                destruct (Z_le_gt_dec b maxInt64) as [L|L]; [rewrite (U1 L) in E2; now inversion E2|].
                rewrite E2 in U2. cbn in U2. specialize (U2 ltac:(lia)). discriminate. }
              subst. apply (or_introl (B:=uopOf OMod x b = None)) in X. apply (divmod_opnone OMod x b) in X as [_ ->].
              split; [assumption|]. right. lia.
        -- apply gi_panic in H as (x & y & E1 & E2 & X).
           apply (or_introl (B:=uopOf OMod x y = None)) in X. apply (divmod_opnone OMod x y) in X as [_ ->].
           split; [apply (asInt_valid_holds o); tauto|tauto].
  - (* if *)
    intros (Hp & Iv & a & Hv & Hw & Z).
    destruct (holds_int o _ _ Hv Iv) as (Ra & Ea & Ua).
    destruct (holds_kind _ _ Hv) as [(Kv & _ & Nv)|(_ & Uv & _)]; [|destruct (fv v); discriminate].
    assert (M0 : maxInt64 <? 0 = false) by reflexivity.
    destruct (holds_kind _ _ Hw) as [(Kw & Iw & Nw)|(Kw & Uw & Nw)].
    + destruct (holds_int o _ _ Hw Iw) as (_ & Eb & _).
      destruct Hp as [-> | ->]; cbn [runOp]; unfold mathDiv, mathMod; rewrite Kv, Ea, Kw; cbn [negb];
        rewrite (gi_eq o v w _ a 0) by assumption; reflexivity.
    + destruct (holds_uint o _ _ Hw Uw) as (_ & Ub & Eb & _). specialize (Eb ltac:(unfold maxInt64; lia)).
      assert (a <> 0) by (destruct Z as [Z|Z]; [destruct (fv w); discriminate|assumption]).
      destruct Hp as [-> | ->]; cbn [runOp]; unfold mathDiv, mathMod; rewrite Kv, Ea, Kw; cbn [negb];
        rewrite Ub, M0, andb_false_r; cbn [negb orb];
        (destruct (Z.leb_spec 0 a);
          [ rewrite (gu_eq o v w _ a 0); try assumption; [reflexivity|rewrite Ua; now replace (0 <? a) with true by lia]
          | rewrite (gi_eq o v w _ a 0) by assumption; reflexivity ]).
Qed.
