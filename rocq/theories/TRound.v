(** C78: ROUND gives the nearest integer, halves away from zero. *)
From Coq Require Import String.
From Verif Require Import Base MTokenizer SJson SUnicode SNames MLit PLit MFastVal MMath MExpr MTransform SFilter MMatcher MTree SDoc SSat SSem SNumber
  PWf PCheck PFloat PNumber SExamples TFastVal TMatch TNames TText TDate TNumber PNearest SRound PRound.
From Coq Require Import List NArith ZArith QArith Qabs Qround Lia Lqa Bool.
From Coq Require Import Floats.SpecFloat.
Import ListNotations.
Open Scope Z_scope.

(** ** The specification in units *)
Definition nearU (x n : Z) : Prop := 2 * Z.abs (x - n * one) < one \/ 2 * Z.abs (x - n * one) = one /\ Z.abs x < Z.abs n * one.
Lemma nearU_opp : forall x n, nearU (- x) (- n) <-> nearU x n.
Proof. intros x n. unfold nearU. replace (- x - - n * one) with (- (x - n * one)) by ring. rewrite !Z.abs_opp. tauto. Qed.
Lemma D_one : Zpos D1074 = one.
Proof. exact D1074_eq. Qed.
Lemma q_abs : forall f, finite f -> (Qabs (valQ f) == Z.abs (units f) # D1074)%Q.
Proof. intros f F. rewrite (val_units f F). reflexivity. Qed.
Lemma q_int : forall n, (inject_Z n == n * one # D1074)%Q.
Proof. intro n. unfold Qeq. cbn [Qnum Qden inject_Z]. rewrite D_one. lia. Qed.
Lemma q_lt : forall a b, ((a # D1074) < (b # D1074))%Q <-> a < b.
Proof. intros. unfold Qlt. cbn [Qnum Qden]. rewrite D_one. pose proof one_pos. split; intro; [apply (Z.mul_lt_mono_pos_r one)|apply Z.mul_lt_mono_pos_r]; auto. Qed.
Lemma q_le : forall a b, ((a # D1074) <= (b # D1074))%Q <-> a <= b.
Proof. intros. unfold Qle. cbn [Qnum Qden]. rewrite D_one. pose proof one_pos. split; intro; [apply (Z.mul_le_mono_pos_r _ _ one)|apply Z.mul_le_mono_pos_r]; auto. Qed.
Lemma q_eq : forall a b, ((a # D1074) == (b # D1074))%Q <-> a = b.
Proof. intros. unfold Qeq. cbn [Qnum Qden]. rewrite D_one. pose proof one_pos as OP. split; intro H; [apply Z.mul_cancel_r in H; lia|now rewrite H]. Qed.
Lemma q_minus : forall a b, ((a # D1074) - (b # D1074) == (a - b) # D1074)%Q.
Proof. intros. unfold Qeq, Qminus, Qplus, Qopp. cbn [Qnum Qden]. rewrite Pos2Z.inj_mul. ring. Qed.
Lemma q_half : ((1 # 2) == half # D1074)%Q.
Proof. unfold Qeq. cbn [Qnum Qden]. rewrite D_one, one_half. ring. Qed.
Lemma half_units : forall f n, finite f -> (halfAway (valQ f) n <-> nearU (units f) n).
Proof.
  intros f n F. unfold halfAway, nearU. pose proof one_half as OH. pose proof one_pos as OP.
  assert (Qabs (valQ f - inject_Z n) == Z.abs (units f - n * one) # D1074)%Q as E by (rewrite (val_units f F), (q_int n), q_minus; reflexivity).
  assert (Qabs (inject_Z n) == Z.abs n * one # D1074)%Q as E2.
  { change (Qabs (inject_Z n)) with (inject_Z (Z.abs n)). apply q_int. }
  rewrite E, (q_abs f F), E2, q_half, q_lt, q_eq, q_lt. split; (intros [?|[? ?]]; [left|right; split]); lia.
Qed.
Lemma wrong_units : forall f, finite f -> (wrongAt (valQ f) <->
  Z.abs (units f) = stepBack \/ (2 ^ 52 * one < Z.abs (units f) < 2 ^ 53 * one /\ exists k, units f = (2 * k + 1) * one) \/ 2 ^ 63 * one < Z.abs (units f)).
Proof.
  intros f F. unfold wrongAt, oddInt.
  assert (beforeHalf == stepBack # D1074)%Q as EB.
  { unfold beforeHalf, Qeq. cbn [Qnum Qden]. rewrite D_one. unfold stepBack.
    assert (one = 2 ^ 54 * pow2 1020) as E1 by (change (2 ^ 54) with (pow2 54); rewrite <- pow2_add by lia; reflexivity).
    assert (half = 2 ^ 53 * pow2 1020) as E2 by (change (2 ^ 53) with (pow2 53); rewrite <- pow2_add by lia; reflexivity).
    rewrite E1, E2. change (2 ^ 54) with 18014398509481984. change (2 ^ 53) with 9007199254740992. ring. }
  assert (forall k, (valQ f == inject_Z k)%Q <-> units f = k * one) as EI by (intro k; rewrite (val_units f F), (q_int k), q_eq; tauto).
  assert ((exists k, valQ f == inject_Z (2 * k + 1))%Q <-> exists k, units f = (2 * k + 1) * one) as EO.
  { split; intros [k H]; exists k; [now apply EI in H|now apply EI]. }
  rewrite EO, (q_abs f F), EB, !q_int, q_eq, !q_lt. tauto.
Qed.

(** ** Right and wrong *)
Lemma abs_right : forall x, 0 <= x -> x <> stepBack -> (forall k, 2 ^ 52 * one <= x -> x < 2 ^ 53 * one -> x = k * one -> Z.even k = true) ->
  (2 ^ 52 * one <= x -> exists k, x = k * one) -> nearU x (absRes x).
Proof.
  intros x N NB NO HI. unfold absRes, nearU. pose proof one_half as OH. pose proof half_pos as HP. pose proof one_pos as OP.
  destruct (Z.ltb_spec x (2 ^ 52 * one)) as [A|A].
  - destruct (Z.eqb_spec x stepBack) as [B|B]; [contradiction|].
    set (n := (x + half) / one). pose proof (Z.div_mod (x + half) one ltac:(lia)) as D. pose proof (Z.mod_pos_bound (x + half) one ltac:(lia)) as M. fold n in D.
    assert (0 <= n) by (apply Z.div_pos; lia). rewrite (Z.mul_comm n one). rewrite (Z.abs_eq n), (Z.abs_eq x) by lia. rewrite (Z.mul_comm n one).
    set (p := one * n) in *. clearbody p. destruct (Z.eq_dec (p - x) half) as [E|E]; [right|left]; lia.
  - destruct (HI A) as [k E]. assert (x / one = k) as EK by (rewrite E; apply Z.div_mul; lia). rewrite EK. left.
    assert (x - k * one = 0) as Z0 by lia.
    destruct (Z.ltb_spec x (2 ^ 53 * one)) as [B|B]; [|rewrite Z0; cbn; lia].
    rewrite (NO k A B E), Z0. cbn. lia.
Qed.
Lemma res_opp : forall x, resZ (- x) = - resZ x.
Proof. intro x. unfold resZ. rewrite Z.abs_opp, Z.sgn_opp. ring. Qed.
Lemma ints : forall f, finite f -> 2 ^ 52 * one <= Z.abs (units f) -> exists k, Z.abs (units f) = k * one.
Proof.
  intros f F H. destruct (on_grid f 1074 F ltac:(lia)) as [[k E]|G]; fold one in *; [|lia]. exists (Z.abs k). rewrite E, Z.abs_mul. pose proof one_pos. lia.
Qed.
Lemma units_right : forall f, finite f -> ~ wrongAt (valQ f) -> nearU (units f) (resZ (units f)).
Proof.
  intros f F NW. rewrite (wrong_units f F) in NW. pose proof one_pos as OP.
  assert (nearU (Z.abs (units f)) (absRes (Z.abs (units f)))) as X.
  { apply abs_right; [lia|tauto| |now apply ints]. intros k A B E. destruct (Z.even k) eqn:EV; auto. exfalso. apply NW. right. left.
    assert (Z.odd k = true) as OD by (rewrite <- Z.negb_even, EV; reflexivity). apply Z.odd_spec in OD. destruct OD as [j ->].
    assert (2 ^ 52 * one <> Z.abs (units f)) as NE. { rewrite E. intro Y. apply Z.mul_cancel_r in Y; [|lia]. rewrite <- Y in EV. discriminate EV. }
    split; [lia|]. destruct (Z_le_gt_dec 0 (units f)); [exists j; lia|exists (- j - 1); lia]. }
  unfold resZ. destruct (Z.lt_trichotomy (units f) 0) as [L|[L|L]].
  - rewrite Z.sgn_neg by lia. replace (Z.abs (units f)) with (- units f) in * by lia. apply (proj1 (nearU_opp _ _)). replace (- (-1 * absRes (- units f))) with (absRes (- units f)) by ring. exact X.
  - rewrite L. left. cbn. lia.
  - rewrite Z.sgn_pos, Z.mul_1_l by lia. replace (Z.abs (units f)) with (units f) in * by lia. exact X.
Qed.

(** *** The theorem *)
Theorem C78_round : forall o f u, finite f -> rightAt (valQ f) ->
  exists r n, mathRound o (FV (VFloat f) u) = Ok (plain (VFloat r)) /\ finite r /\ (valQ r == inject_Z n)%Q /\ halfAway (valQ f) n.
Proof.
  intros o f u F (L1 & L2 & NW). exists (floatMathRound o f), (resZ (units f)). split; [reflexivity|].
  assert (- (2 ^ 63 * one) <= units f < 2 ^ 63 * one) as B.
  { rewrite (val_units f F) in L1, L2. rewrite <- inject_Z_opp in L1. rewrite q_int in L1, L2. apply (proj1 (q_le _ _)) in L1. apply (proj1 (q_lt _ _)) in L2. lia. }
  destruct (round_units o f F B) as [FR ER]. split; auto. split.
  - rewrite (val_units _ FR), ER, q_int. reflexivity.
  - apply half_units; auto. now apply units_right.
Qed.
(** Nowhere else. *)
Theorem C78_wrong_refuted : forall o f u, finite f -> wrongAt (valQ f) ->
  exists r, mathRound o (FV (VFloat f) u) = Ok (plain (VFloat r)) /\ finite r /\ forall n, halfAway (valQ f) n -> ~ (valQ r == inject_Z n)%Q.
Proof.
  intros o f u F W. exists (floatMathRound o f). split; [reflexivity|]. apply (wrong_units f F) in W. pose proof one_pos as OP. pose proof one_half as OH. pose proof half_pos as HP.
  assert (forall k n : Z, k <> n -> one <= Z.abs (k * one - n * one)) as ST.
  { intros k n N. rewrite <- Z.mul_sub_distr_r, Z.abs_mul, (Z.abs_eq one) by lia. assert (1 <= Z.abs (k - n)) by lia. nia. }
  destruct (Z_le_gt_dec (Z.abs (units f)) (2 ^ 63 * one)) as [I|I].
  - assert (stepBack < half) as SB by (unfold stepBack; pose proof (pow2_pos 1020 ltac:(lia)); lia).
    assert (Z.abs (units f) < 2 ^ 53 * one) as I2 by (destruct W as [W|[[W _]|W]]; lia).
    destruct (round_units o f F ltac:(change (2 ^ 63) with (2 ^ 53 * 2 ^ 10); lia)) as [FR ER]. split; auto. intros n H E.
    apply (half_units f n F) in H. rewrite (val_units _ FR), ER, q_int in E. apply (proj1 (q_eq _ _)) in E. apply Z.mul_cancel_r in E; [|lia]. subst n.
    assert (nearU (Z.abs (units f)) (absRes (Z.abs (units f)))) as H'.
    { unfold resZ in H. destruct (Z.lt_trichotomy (units f) 0) as [L|[L|L]].
      - rewrite Z.sgn_neg in H by lia. replace (Z.abs (units f)) with (- units f) in * by lia. apply (proj1 (nearU_opp _ _)). replace (- absRes (- units f)) with (-1 * absRes (- units f)) by ring. now rewrite Z.opp_involutive.
      - exfalso. rewrite L in W. cbn [Z.abs] in W. unfold stepBack in W. assert (pow2 1020 < half) by reflexivity. destruct W as [W|[[W _]|W]]; lia.
      - rewrite Z.sgn_pos, Z.mul_1_l in H by lia. replace (Z.abs (units f)) with (units f) in * by lia. exact H. }
    clear H ER FR I. destruct W as [W|[[W [k K]]|W]].
    + rewrite W in H'. unfold absRes in H'. rewrite Z.eqb_refl in H'. replace (stepBack <? 2 ^ 52 * one) with true in H' by (symmetry; apply Z.ltb_lt; lia).
      unfold nearU in H'. lia.
    + assert (exists j, Z.abs (units f) = j * one /\ Z.even j = false) as (j & EJ & OJ).
      { destruct (Z_le_gt_dec 0 (units f)); [exists (2 * k + 1)|exists (- (2 * k + 1))]; (split; [lia|]); rewrite ?Z.even_opp, Z.even_add, Z.even_mul; reflexivity. }
      unfold absRes in H'. replace (Z.abs (units f) <? 2 ^ 52 * one) with false in H' by (symmetry; apply Z.ltb_ge; lia). replace (Z.abs (units f) <? 2 ^ 53 * one) with true in H' by (symmetry; apply Z.ltb_lt; lia).
      rewrite EJ, Z.div_mul, OJ in H' by lia. specialize (ST j (j + 1) ltac:(lia)). unfold nearU in H'. lia.
    + exfalso. lia.
  - destruct (round_outside o f F ltac:(lia)) as [FR ER]. split; auto. intros n H E.
    apply (half_units f n F) in H. rewrite (val_units _ FR), q_int in E. apply (proj1 (q_eq _ _)) in E.
    destruct (on_grid f 1074 F ltac:(lia)) as [[k EK]|G]; fold one in *; [|change (2 ^ 63) with (2 ^ 52 * 2 ^ 11) in I; lia].
    rewrite EK in *. assert (k <> n) as N by (intros ->; rewrite E in ER; lia). specialize (ST k n N). unfold nearU in H. lia.
Qed.
(** One integer at most is meant. *)
Theorem C78_unique : forall f n n', finite f -> halfAway (valQ f) n -> halfAway (valQ f) n' -> n = n'.
Proof.
  intros f n n' F H H'. apply half_units in H, H'; auto. unfold nearU in *. pose proof one_pos as OP. destruct (Z.eq_dec n n') as [|N]; auto. exfalso.
  assert (one <= Z.abs (n * one - n' * one)) as ST.
  { rewrite <- Z.mul_sub_distr_r, Z.abs_mul, (Z.abs_eq one) by lia. assert (1 <= Z.abs (n - n')) by lia. nia. }
  assert (2 * Z.abs (units f - n * one) = one /\ 2 * Z.abs (units f - n' * one) = one) as [E E'] by lia.
  destruct H as [H|[_ H]]; [lia|]. destruct H' as [H'|[_ H']]; [lia|].
  assert (Z.abs n * one = Z.abs (n * one)) as A by (rewrite Z.abs_mul; lia). assert (Z.abs n' * one = Z.abs (n' * one)) as A' by (rewrite Z.abs_mul; lia). rewrite A in H. rewrite A' in H'. clear A A'.
  assert (Z.abs (n - n') <= 1) as D. { apply (Z.mul_le_mono_pos_r _ _ one); [exact OP|]. rewrite <- (Z.abs_eq one) at 1 by lia. rewrite <- Z.abs_mul, Z.mul_sub_distr_r. lia. }
  assert ((0 <= n /\ 0 <= n') \/ (n <= 0 /\ n' <= 0)) as [[S S']|[S S']] by lia; pose proof (Z.mul_le_mono_nonneg_r _ _ one ltac:(lia) S); pose proof (Z.mul_le_mono_nonneg_r _ _ one ltac:(lia) S'); lia.
Qed.
(** Integers are left alone. *)
Theorem C78_integer : forall o v, isInt (fv v) = true \/ isUInt (fv v) = true -> mathRound o v = Ok v.
Proof. intros o [v u] H. destruct v; cbn in *; destruct H; try discriminate; reflexivity. Qed.

(** ** Decimal numbers *)
(** A number with at most six places below a billion is rounded as it is written. *)
Open Scope Q_scope.
Lemma halves : forall m, (Z.abs m <= 2 * 10 ^ 9 + 1)%Z -> exists g, finite g /\ valQ g == m # 2.
Proof.
  intros m H. destruct (grid (m * 2 ^ 22)) as (g & G & E); [lia|]. exists g. split; auto. rewrite E, inject_Z_mult.
  change ((2 # 1) ^ (-23)) with (1 # 8388608). unfold Qeq, Qmult, inject_Z. cbn [Qnum Qden]. change (2 ^ 22)%Z with 4194304%Z. lia.
Qed.
Lemma near_decimal : forall f v n, nearest f v -> sixPlaces v -> Qabs v <= billion -> halfAway v n -> halfAway (valQ f) n /\ rightAt (valQ f).
Proof.
  intros f v n HN [z Ez] HB HH. pose proof (nearest_error f v HN HB) as HE. apply Qabs_Qle_condition in HE. apply Qabs_Qle_condition in HB.
  assert (billion == 1000000000) as EB by reflexivity. rewrite EB in HB.
  assert (forall m, v == m # 2 -> valQ f == v) as EX.
  { intros m Em. assert (Z.abs m <= 2 * 10 ^ 9 + 1)%Z as X.
    { rewrite Em in HB. unfold Qle, Qopp in HB. cbn [Qnum Qden] in HB. lia. }
    destruct (halves m X) as (g & G & EG). apply (nearest_exact f v g HN G). lra. }
  assert (inject_Z n == (n * 1000000) # 1000000) as En by (unfold Qeq, inject_Z; cbn [Qnum Qden]; lia).
  assert (v - inject_Z n == (z - n * 1000000) # 1000000) as Ed.
  { rewrite Ez, En. unfold Qeq, Qminus, Qplus, Qopp. cbn [Qnum Qden]. lia. }
  split.
  - unfold halfAway in *. destruct HH as [HH|[HH HL]].
    + left. assert (Qabs (v - inject_Z n) <= 499999 # 1000000) as X.
      { rewrite Ed in *. change (Qabs ((z - n * 1000000) # 1000000)) with (Z.abs (z - n * 1000000) # 1000000) in *. unfold Qlt, Qle in *. cbn [Qnum Qden] in *. lia. }
      apply Qabs_Qle_condition in X. apply Qabs_Qlt_condition. lra.
    + assert (valQ f == v) as E.
      { rewrite Ed in HH. change (Qabs ((z - n * 1000000) # 1000000)) with (Z.abs (z - n * 1000000) # 1000000) in HH. unfold Qeq in HH. cbn [Qnum Qden] in HH.
        destruct (Z_le_gt_dec 0 (z - n * 1000000)); [apply (EX (2 * n + 1)%Z)|apply (EX (2 * n - 1)%Z)]; rewrite Ez; unfold Qeq; cbn [Qnum Qden]; lia. }
      right. rewrite E. auto.
  - assert (Qabs (valQ f) <= 1000000001) as HF by (apply Qabs_Qle_condition; lra).
    assert (inject_Z (2 ^ 52) == 4503599627370496) as E52 by reflexivity. assert (inject_Z (2 ^ 63) == 9223372036854775808) as E63 by reflexivity.
    split; [rewrite E63; apply Qabs_Qle_condition in HF; lra|]. split; [rewrite E63; apply Qabs_Qle_condition in HF; lra|].
    intros [W|[[W _]|W]]; [|rewrite E52 in W; lra|rewrite E63 in W; lra].
    unfold beforeHalf in W.
    assert (Z.abs z = 500000)%Z as Z5.
    { assert (Qabs v == Z.abs z # 1000000) as A by (rewrite Ez; reflexivity).
      assert (Qabs (Qabs (valQ f) - Qabs v) <= 1 # 16777216) as B.
      { apply Qabs_Qle_condition. revert HE. apply (Qabs_case (valQ f)); intros; apply (Qabs_case v); intros; lra. }
      apply Qabs_Qle_condition in B. rewrite A, W in B. destruct B as [B1 B2].
      assert ((499999 # 1000000) < (Z.abs z # 1000000)) as C1 by lra. assert ((Z.abs z # 1000000) < (500001 # 1000000)) as C2 by lra.
      unfold Qlt in C1, C2. cbn [Qnum Qden] in C1, C2. lia. }
    assert (valQ f == v) as E.
    { destruct (Z_le_gt_dec 0 z); [apply (EX 1%Z)|apply (EX (-1)%Z)]; rewrite Ez; unfold Qeq; cbn [Qnum Qden]; lia. }
    assert (Qabs v == 1 # 2) as V. { rewrite Ez. change (Qabs (z # 1000000)) with (Z.abs z # 1000000). rewrite Z5. reflexivity. }
    rewrite E, V in W. unfold Qeq in W. cbn [Qnum Qden] in W. discriminate W.
Qed.
Lemma round_held : forall o x u v n, parsesDecimals o -> held o x v -> sixPlaces v -> Qabs v <= billion -> halfAway v n ->
  exists y u', mathRound o (FV x u) = Ok (FV y u') /\ exists q, held o y q /\ q == inject_Z n.
Proof.
  intros o x u v n HP HX HS HB HH. destruct HX as [z Hz|f F|t v f HT HG HE HN].
  - exists (VInt z), u. split; [apply C78_integer; now left|]. exists (inject_Z z). split; [now constructor|].
    assert (inject_Z z - inject_Z n == inject_Z (z - n)) as E by (unfold Qeq, Qminus, Qplus, Qopp, inject_Z; cbn [Qnum Qden]; lia).
    assert (z = n) as ->; [|reflexivity]. unfold halfAway in HH. rewrite E in HH. change (Qabs (inject_Z (z - n))) with (inject_Z (Z.abs (z - n))) in HH.
    unfold Qlt, Qeq, inject_Z in HH. cbn [Qnum Qden] in HH. lia.
  - destruct (near_decimal f (valQ f) n (nearest_self f F) HS HB HH) as [H1 H2]. destruct (C78_round o f u F H2) as (r & m & E & FR & ER & HR).
    assert (m = n) as -> by exact (C78_unique f m n F HR H1). exists (VFloat r), false. split; [exact E|]. exists (valQ r). split; [now constructor|exact ER].
  - destruct (near_decimal f v n HN HS HB HH) as [H1 H2]. destruct (C78_round o f u (proj1 HN) H2) as (r & m & E & FR & ER & HR).
    assert (m = n) as -> by exact (C78_unique f m n (proj1 HN) HR H1). exists (VFloat r), false. split; [exact E|]. exists (valQ r). split; [now constructor|exact ER].
Qed.
Lemma ordered_eqv : forall k v v' w, v == v' -> (orderedQ k v w <-> orderedQ k v' w).
Proof. intros k v v' w E. destruct k; cbn [orderedQ]; try rewrite E; tauto. Qed.
Definition rounded (e : expr) : expr := XFunc (s2b "mathRound") [e].
Theorem C78_filter : forall o k p v n c w1 doc w2, let e := XCmp k (rounded (XField 0 p)) (XValue (GInt c)) in
  parsesDecimals o -> k <> CLike -> supported o [e] -> ws w1 -> wf_cst doc -> ws w2 -> named doc -> benign [e] doc ->
  numberOf doc (XField 0 p) v -> sixPlaces v -> Qabs v <= billion -> halfAway v n -> (Z.abs c <= 10 ^ 9)%Z ->
  exists res, answers o [e] (doc_text w1 doc w2) res (fun _ => res) /\ (res = true <-> orderedQ k (inject_Z n) (inject_Z c)).
Proof.
  intros o k p v n c w1 doc w2 e HP Hk HS W1 WD W2 HN HB HV H6 HL HH HC.
  destruct (number_val o doc (XField 0 p) v HP WD HN HV) as (P1 & x & u & E1 & H1).
  destruct (round_held o x u v n HP H1 H6 HL HH) as (y & u' & E2 & q & H2 & Eq).
  assert (held o (VInt c) (inject_Z c)) as H3 by (constructor; unfold exactInt; lia).
  apply (cmp_answer o k (rounded (XField 0 p)) (XValue (GInt c)) (FV y u') (FV (VInt c) true)); auto.
  - cbn [rounded oval]. change (funLookup (s2b "mathRound") funTable) with (Some (Fn1 mathRound)). cbv iota beta. cbn [oval] in E1. rewrite E1. cbn [obind]. exact E2.
  - rewrite <- (ordered_eqv k q (inject_Z n) _ Eq).
    destruct (number_compare o y (VInt c) q (inject_Z c) u' true HP H2 H3) as (s & EC & ES & EA).
    apply sign_holds; auto. rewrite EC. f_equal.
    destruct (Z.eq_dec n c) as [->|NC].
    + rewrite (sgnQ_eq q (inject_Z c) Eq) in *. destruct ES; auto.
    + assert (Z.abs n <= 10 ^ 9)%Z as NB.
      { unfold halfAway in HH. apply Qabs_Qle_condition in HL. change billion with (inject_Z 1000000000) in HL.
        assert (Qabs (v - inject_Z n) <= 1 # 2) as X by (destruct HH as [?|[? _]]; lra). apply Qabs_Qle_condition in X.
        destruct (Z_le_gt_dec (Z.abs n) (10 ^ 9)) as [|G]; auto. exfalso. change (10 ^ 9)%Z with 1000000000%Z in G.
        assert (inject_Z 1000000000 + 1 <= inject_Z n \/ inject_Z n <= - inject_Z 1000000000 - 1) as [Y|Y]; try lra.
        destruct (Z_le_gt_dec 0 n); [left|right]; unfold Qle; cbn; lia. }
      apply EA.
      * rewrite Eq. change (Qabs (inject_Z n)) with (inject_Z (Z.abs n)). unfold billion, Qle, inject_Z. cbn [Qnum Qden]. lia.
      * change (Qabs (inject_Z c)) with (inject_Z (Z.abs c)). unfold billion, Qle, inject_Z. cbn [Qnum Qden]. lia.
      * rewrite Eq. assert (inject_Z n - inject_Z c == inject_Z (n - c)) as E by (unfold Qeq, Qminus, Qplus, Qopp, inject_Z; cbn [Qnum Qden]; lia).
        rewrite E. change (Qabs (inject_Z (n - c))) with (inject_Z (Z.abs (n - c))). unfold Qle, inject_Z. cbn [Qnum Qden]. lia.
Qed.

(** ** Cases *)
(** -2.5 is rounded to -3, 0.49999999999999994 to 1 and 4503599627370497.0 to
    4503599627370498. *)
Definition fBefore : float := S754_finite false 9007199254740991 (-54).
Definition fOdd : float := S754_finite false 4503599627370497 0.
Definition fTwoHalf : float := S754_finite true 5629499534213120 (-51).
Example C78_right_case : finite fTwoHalf /\ valQ fTwoHalf == -5 # 2 /\ rightAt (valQ fTwoHalf) /\ halfAway (valQ fTwoHalf) (-3).
Proof.
  split; [split; [reflexivity|exact I]|]. split; [reflexivity|]. split; [|right; split; reflexivity].
  split; [vm_compute; discriminate|]. split; [reflexivity|]. intros [W|[[W _]|W]]; vm_compute in W; discriminate W.
Qed.
Example C78_wrong_case : finite fBefore /\ wrongAt (valQ fBefore) /\ finite fOdd /\ wrongAt (valQ fOdd)
  /\ halfAway (valQ fBefore) 0 /\ halfAway (valQ fOdd) 4503599627370497
  /\ forall o u, mathRound o (FV (VFloat fBefore) u) = Ok (plain (VFloat (Z2f 1))) /\ mathRound o (FV (VFloat fOdd) u) = Ok (plain (VFloat (Z2f 4503599627370498))).
Proof.
  split; [split; [reflexivity|exact I]|]. split; [left; reflexivity|]. split; [split; [reflexivity|exact I]|].
  split; [right; left; split; [reflexivity|split; [reflexivity|exists 2251799813685248%Z; reflexivity]]|].
  split; [left; reflexivity|]. split; [left; reflexivity|]. intros o u. split; vm_compute; reflexivity.
Qed.
(** The filter [ROUND(a) = -3] on [{"a":-2.50}]. *)
Definition exRound : expr := XCmp CEq (rounded aF) (XValue (GInt (-3))).
Definition docR : cst := obj [("a"%string, lit "-2.50")].
Example C78_filter_case : forall o, supported o [exRound] /\ wf_cst docR /\ named docR /\ benign [exRound] docR
  /\ numberOf docR aF (- decimal [50%N] [53; 48]%N 0) /\ sixPlaces (- decimal [50%N] [53; 48]%N 0) /\ Qabs (- decimal [50%N] [53; 48]%N 0) <= billion
  /\ halfAway (- decimal [50%N] [53; 48]%N 0) (-3).
Proof.
  intro o. split; [apply supportedb_ok; vm_compute; reflexivity|]. split; [apply wfb_ok; vm_compute; reflexivity|]. split.
  - constructor.
    + intros m [<-|[]]. exists (s2b "a"%string). exact (ni_plain (s2b "a"%string)).
    + intros [|i] [|j] m m' k Hi Hj A B; auto; try (destruct i; discriminate Hi); destruct j; discriminate Hj.
    + intros m [<-|[]]. constructor.
  - split; [apply benignb_ok; vm_compute; reflexivity|]. split.
    + apply (no_decimal docR [s2b "a"%string] (s2b "-2.50"%string)).
      * econstructor; [|constructor]. apply (ch_mem _ _ (mb "a"%string (lit "-2.50"))); [now left|exact (ni_plain (s2b "a"%string))].
      * assert (forall c, (48 <= c <= 57)%N -> digit c) as D by auto.
        apply (num_neg [50%N] [46; 53; 48]%N [53; 48]%N [] 0).
        -- apply np_pos; [unfold digit19; lia|constructor].
        -- constructor; [apply D; lia|constructor; [apply D; lia|constructor]].
        -- constructor.
      * vm_compute. discriminate.
    + split; [exists (-2500000)%Z; reflexivity|]. split; [vm_compute; discriminate|right; split; reflexivity].
Qed.

Print Assumptions C78_round.
Print Assumptions C78_wrong_refuted.
Print Assumptions C78_unique.
Print Assumptions C78_integer.
Print Assumptions C78_filter.
