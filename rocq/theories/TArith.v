(** C79: arithmetic on floating-point numbers is correctly rounded. *)
From Coq Require Import String.
From Verif Require Import Base MTokenizer SJson SUnicode SNames MLit PLit MFastVal MMath MExpr MTransform SFilter MMatcher MTree SDoc SSat SSem SNumber
  PWf PCheck PFloat PNumber SExamples TFastVal TMatch TNames TText TDate TNumber PNearest SRound SArith PArith.
From Coq Require Import List NArith ZArith QArith Qabs Qround Qfield Lia Lqa Bool.
From Coq Require Import Floats.SpecFloat.
Import ListNotations.
Open Scope Z_scope.

(** ** From units to values *)
Lemma D_pow : Zpos D1074 = pow2 1074.
Proof. exact D1074_eq. Qed.
Lemma pow1074 : 0 < pow2 1074.
Proof. now apply pow2_pos. Qed.
Lemma u_lt : forall a b, ((a # D1074) < (b # D1074))%Q <-> a < b.
Proof. intros. unfold Qlt. cbn [Qnum Qden]. rewrite D_pow. pose proof pow1074. split; intro; [apply (Z.mul_lt_mono_pos_r (pow2 1074))|apply Z.mul_lt_mono_pos_r]; auto. Qed.
Lemma u_le : forall a b, ((a # D1074) <= (b # D1074))%Q <-> a <= b.
Proof. intros. unfold Qle. cbn [Qnum Qden]. rewrite D_pow. pose proof pow1074. split; intro; [apply (Z.mul_le_mono_pos_r _ _ (pow2 1074))|apply Z.mul_le_mono_pos_r]; auto. Qed.
Lemma u_eq : forall a b, ((a # D1074) == (b # D1074))%Q <-> a = b.
Proof. intros. unfold Qeq. cbn [Qnum Qden]. rewrite D_pow. pose proof pow1074 as OP. split; intro H; [apply Z.mul_cancel_r in H; lia|now rewrite H]. Qed.
Lemma u_minus : forall a b, ((a # D1074) - (b # D1074) == (a - b) # D1074)%Q.
Proof. intros. unfold Qeq, Qminus, Qplus, Qopp. cbn [Qnum Qden]. rewrite Pos2Z.inj_mul. ring. Qed.
Lemma u_plus : forall a b, ((a # D1074) + (b # D1074) == (a + b) # D1074)%Q.
Proof. intros. unfold Qeq, Qplus. cbn [Qnum Qden]. rewrite Pos2Z.inj_mul. ring. Qed.
Lemma u_scale : forall a S, ((a # D1074) * inject_Z S == a * S # D1074)%Q.
Proof. intros. unfold Qeq, Qmult, inject_Z. cbn [Qnum Qden]. rewrite Pos.mul_1_r. reflexivity. Qed.
Lemma u_one : forall z, (inject_Z z == z * pow2 1074 # D1074)%Q.
Proof. intro z. unfold Qeq, inject_Z. cbn [Qnum Qden]. rewrite D_pow. ring. Qed.

Lemma overflow_units : (overflow == maxU # D1074)%Q.
Proof.
  unfold overflow. rewrite u_one. apply u_eq. unfold maxU. change (2 ^ 970) with (pow2 970). rewrite <- Z.mul_assoc, <- pow2_add by lia. reflexivity.
Qed.
Lemma round_value : forall f z S v, 0 < S -> isRoundS f z S -> (v * inject_Z S == z # D1074)%Q -> nearestEven f v.
Proof.
  intros f z S v HS (F & N & T) E.
  assert (forall g, finite g -> (Qabs (valQ g - v) * inject_Z S == Z.abs (units g * S - z) # D1074)%Q) as K.
  { intros g G. assert (inject_Z S == Qabs (inject_Z S))%Q as X by (change (Qabs (inject_Z S)) with (inject_Z (Z.abs S)); now rewrite Z.abs_eq by lia).
    rewrite X, <- Qabs_Qmult. assert ((valQ g - v) * inject_Z S == (units g * S - z) # D1074)%Q as Y; [|rewrite Y; reflexivity].
    setoid_replace ((valQ g - v) * inject_Z S)%Q with (valQ g * inject_Z S - v * inject_Z S)%Q by ring. rewrite E, (val_units g G), u_scale, u_minus. reflexivity. }
  assert (0 < inject_Z S)%Q as PS by (change 0%Q with (inject_Z 0); now rewrite <- Zlt_Qlt).
  split; [split; auto|]; intros g G.
  - apply (Qmult_le_r _ _ (inject_Z S) PS). rewrite (K f F), (K g G). apply u_le. now apply N.
  - intros D X. apply (T g G).
    + intro Y. apply D. rewrite (val_units g G), (val_units f F). apply u_eq. exact Y.
    + apply u_eq. rewrite <- (K f F), <- (K g G), X. reflexivity.
Qed.
Lemma round_unit : forall f z, isRound f z -> isRoundS f z 1.
Proof.
  intros f z (F & N & T). split; auto. split; intros g G; rewrite !Z.mul_1_r; [now apply N|]. intros D E. now apply (T g G).
Qed.
Lemma units_zero : forall f, finite f -> (valQ f == 0)%Q <-> units f = 0.
Proof. intros f F. rewrite (val_units f F). assert (0 == 0 # D1074)%Q as -> by reflexivity. apply u_eq. Qed.

(** ** The four operations *)
Lemma fadd_nearest : forall f g, finite f -> finite g -> (Qabs (valQ f + valQ g) < overflow)%Q -> nearestEven (fadd f g) (valQ f + valQ g).
Proof.
  intros f g F G H. rewrite (val_units f F), (val_units g G), u_plus, overflow_units in H. change (Qabs (units f + units g # D1074)) with (Z.abs (units f + units g) # D1074) in H. apply (proj1 (u_lt _ _)) in H.
  apply (round_value _ (units f + units g) 1); [lia|apply round_unit; now apply fadd_round|]. rewrite (val_units f F), (val_units g G), u_plus, u_scale, Z.mul_1_r. reflexivity.
Qed.
Lemma fsub_nearest : forall f g, finite f -> finite g -> (Qabs (valQ f - valQ g) < overflow)%Q -> nearestEven (fsub f g) (valQ f - valQ g).
Proof.
  intros f g F G H. rewrite (val_units f F), (val_units g G), u_minus, overflow_units in H. change (Qabs (units f - units g # D1074)) with (Z.abs (units f - units g) # D1074) in H. apply (proj1 (u_lt _ _)) in H.
  apply (round_value _ (units f - units g) 1); [lia|apply round_unit; now apply fsub_round|]. rewrite (val_units f F), (val_units g G), u_minus, u_scale, Z.mul_1_r. reflexivity.
Qed.
Lemma mul_scaled : forall f g, finite f -> finite g -> (valQ f * valQ g * inject_Z (pow2 1074) == units f * units g # D1074)%Q.
Proof.
  intros f g F G. setoid_replace (valQ f * valQ g * inject_Z (pow2 1074))%Q with (valQ f * (valQ g * inject_Z (pow2 1074)))%Q by ring.
  rewrite (val_units g G), u_scale, <- u_one, (val_units f F), u_scale. reflexivity.
Qed.
Lemma fmul_nearest : forall f g, finite f -> finite g -> (Qabs (valQ f * valQ g) < overflow)%Q -> nearestEven (fmul f g) (valQ f * valQ g).
Proof.
  intros f g F G H. pose proof pow1074 as P.
  apply (round_value _ (units f * units g) (pow2 1074)); [exact P| |now apply mul_scaled]. apply fmul_round; auto. apply u_lt.
  assert (0 < inject_Z (pow2 1074))%Q as PS by (change 0%Q with (inject_Z 0); now rewrite <- Zlt_Qlt).
  apply (Qmult_lt_r _ _ (inject_Z (pow2 1074)) PS) in H. rewrite overflow_units, u_scale in H. apply (Qle_lt_trans _ _ _ ) with (2 := H).
  assert (inject_Z (pow2 1074) == Qabs (inject_Z (pow2 1074)))%Q as X by (change (Qabs (inject_Z (pow2 1074))) with (inject_Z (Z.abs (pow2 1074))); rewrite Z.abs_eq by (apply Z.lt_le_incl; exact P); reflexivity).
  rewrite X, <- Qabs_Qmult, (mul_scaled f g F G). apply Qle_refl.
Qed.
Lemma div_scaled : forall f g, finite f -> finite g -> units g <> 0 -> (valQ f / valQ g * inject_Z (Z.abs (units g)) == Z.sgn (units g) * units f * pow2 1074 # D1074)%Q.
Proof.
  intros f g F G N. assert (~ valQ g == 0)%Q as NQ by (rewrite (units_zero g G); exact N).
  assert (inject_Z (Z.abs (units g)) == inject_Z (Z.sgn (units g)) * (valQ g * inject_Z (pow2 1074)))%Q as E.
  { rewrite (val_units g G), u_scale, <- u_one, <- inject_Z_mult. rewrite Z.mul_comm, Z.sgn_abs by idtac. reflexivity. }
  rewrite E. rewrite <- u_scale. setoid_replace (valQ f / valQ g * (inject_Z (Z.sgn (units g)) * (valQ g * inject_Z (pow2 1074))))%Q with (valQ f * inject_Z (Z.sgn (units g)) * inject_Z (pow2 1074))%Q by (field; exact NQ).
  rewrite (val_units f F), u_scale, !u_scale. apply u_eq. ring.
Qed.
Lemma fdiv_nearest : forall f g, finite f -> finite g -> ~ (valQ g == 0)%Q -> (Qabs (valQ f / valQ g) < overflow)%Q -> nearestEven (fdiv f g) (valQ f / valQ g).
Proof.
  intros f g F G NQ H. assert (units g <> 0) as N by (intro X; apply NQ; now apply units_zero).
  assert (0 < Z.abs (units g)) as P by lia.
  apply (round_value _ (Z.sgn (units g) * units f * pow2 1074) (Z.abs (units g))); [exact P| |now apply div_scaled]. apply fdiv_round; auto. apply u_lt.
  assert (0 < inject_Z (Z.abs (units g)))%Q as PS by (change 0%Q with (inject_Z 0); now rewrite <- Zlt_Qlt).
  apply (Qmult_lt_r _ _ (inject_Z (Z.abs (units g))) PS) in H. rewrite overflow_units, u_scale in H. apply (Qle_lt_trans _ _ _ ) with (2 := H).
  assert (inject_Z (Z.abs (units g)) == Qabs (inject_Z (Z.abs (units g))))%Q as X by (change (Qabs (inject_Z (Z.abs (units g)))) with (inject_Z (Z.abs (Z.abs (units g)))); rewrite Z.abs_involutive; reflexivity).
  rewrite X, <- Qabs_Qmult, (div_scaled f g F G N).
  assert (Z.abs (Z.sgn (units g) * units f * pow2 1074) = Z.abs (units f * pow2 1074)) as Y.
  { rewrite <- Z.mul_assoc, Z.abs_mul. destruct (Z.sgn_spec (units g)) as [[? ->]|[[? ->]|[? ->]]]; lia. }
  rewrite <- Y. apply Qle_refl.
Qed.

(** ** The theorems *)
Section C79.
Variables (o : oracles) (f g : float) (u u' : bool).
Hypothesis F : finite f.
Hypothesis G : finite g.
Theorem C79_add : (Qabs (valQ f + valQ g) < overflow)%Q ->
  exists r, mathAdd o (FV (VFloat f) u) (FV (VFloat g) u') = Ok (plain (VFloat r)) /\ nearestEven r (valQ f + valQ g).
Proof using F G. intro H. exists (fadd f g). split; [reflexivity|now apply fadd_nearest]. Qed.
Theorem C79_sub : (Qabs (valQ f - valQ g) < overflow)%Q ->
  exists r, mathSub o (FV (VFloat f) u) (FV (VFloat g) u') = Ok (plain (VFloat r)) /\ nearestEven r (valQ f - valQ g).
Proof using F G. intro H. exists (fsub f g). split; [reflexivity|now apply fsub_nearest]. Qed.
Theorem C79_mul : (Qabs (valQ f * valQ g) < overflow)%Q ->
  exists r, mathMul o (FV (VFloat f) u) (FV (VFloat g) u') = Ok (plain (VFloat r)) /\ nearestEven r (valQ f * valQ g).
Proof using F G. intro H. exists (fmul f g). split; [reflexivity|now apply fmul_nearest]. Qed.
Theorem C79_div : ~ (valQ g == 0)%Q -> (Qabs (valQ f / valQ g) < overflow)%Q ->
  exists r, mathDiv o (FV (VFloat f) u) (FV (VFloat g) u') = Ok (plain (VFloat r)) /\ nearestEven r (valQ f / valQ g).
Proof using F G. intros N H. exists (fdiv f g). split; [reflexivity|now apply fdiv_nearest]. Qed.
(** Exact. *)
Theorem C79_abs : exists r, mathAbs o (FV (VFloat f) u) = Ok (plain (VFloat r)) /\ finite r /\ (valQ r == Qabs (valQ f))%Q.
Proof using F.
  exists (SFabs f). split; [reflexivity|]. assert (finite (SFabs f)) as FA by (destruct F as [V W]; destruct f; try destruct W; split; auto; exact I).
  split; auto. rewrite (val_units _ FA), (val_units f F). change (Qabs (units f # D1074)) with (Z.abs (units f) # D1074). apply u_eq.
  clear -F. destruct F as [V W]. destruct f as [s|s| |s m e]; try destruct W; [reflexivity|]. apply bounded_spec in V. cbn [SFabs units]. fold (pow2 (e + 1074)). pose proof (pow2_pos (e + 1074) ltac:(lia)). rewrite Z.abs_mul, (Z.abs_eq (pow2 _)) by lia. destruct s; reflexivity.
Qed.
End C79.

(** ** How far from the exact value *)
Open Scope Q_scope.
Lemma floor_double : forall n, (2 ^ 52 <= n)%Z -> (n < 2 ^ 2097)%Z -> exists g U, (0 <= U)%Z /\ finite g /\ (units g <= n)%Z /\ (n - units g <= 2 ^ U - 1)%Z /\ (2 ^ 52 * 2 ^ U <= n)%Z.
Proof.
  intros n L H. set (U := (Z.log2 n - 52)%Z).
  assert (52 <= Z.log2 n)%Z as LG by (apply Z.log2_le_pow2; lia).
  assert (Z.log2 n < 2097)%Z as LH by (apply Z.log2_lt_pow2; [lia|exact H]).
  destruct (Z.log2_spec n ltac:(lia)) as [S1 S2].
  assert (0 <= U)%Z as HU by lia. pose proof (Z.pow_pos_nonneg 2 U ltac:(lia) HU) as P.
  set (k := (n / 2 ^ U)%Z). pose proof (Z.div_mod n (2 ^ U) ltac:(lia)) as D. pose proof (Z.mod_pos_bound n (2 ^ U) P) as M. fold k in D.
  assert (2 ^ 52 * 2 ^ U <= n)%Z as B by (rewrite <- Z.pow_add_r by lia; replace (52 + U)%Z with (Z.log2 n) by lia; exact S1).
  assert (2 ^ 52 <= k < 2 ^ 53)%Z as K.
  { split; [apply Z.div_le_lower_bound; lia|]. apply Z.div_lt_upper_bound; [lia|]. rewrite <- Z.pow_add_r by lia. replace (U + 53)%Z with (Z.succ (Z.log2 n)) by lia. exact S2. }
  destruct k as [|p|p] eqn:EK; try lia.
  assert (units (S754_finite false p (U - 1074)) = Zpos p * 2 ^ U)%Z as EU by (cbn [units]; do 2 f_equal; lia).
  exists (S754_finite false p (U - 1074)), U. split; [exact HU|]. split; [split; [apply bounded_ok; [lia|now apply digits53]|exact I]|].
  rewrite EU. split; [lia|]. split; [lia|exact B].
Qed.
Definition tiny : Q := 1 # (2 ^ 1022).
Definition vast : Q := inject_Z (2 ^ 1023).
Definition ulp : Q := 1 # (2 ^ 52).
Lemma vast_units : (vast == 2 ^ 2097 # D1074)%Q.
Proof. unfold vast. rewrite u_one. apply u_eq. change (2 ^ 1023)%Z with (pow2 1023). rewrite <- pow2_add by lia. reflexivity. Qed.
Lemma tiny_units : (tiny == 2 ^ 52 # D1074)%Q.
Proof.
  unfold tiny, Qeq. cbn [Qnum Qden]. rewrite D_pow, Z.mul_1_l. change (2 ^ 52)%Z with (pow2 52). rewrite Pos2Z.inj_pow. change (2 ^ 1022)%Z with (pow2 1022). rewrite <- pow2_add by lia. reflexivity.
Qed.
Lemma nearest_opp : forall f v, nearest f v -> nearest (SFopp f) (- v).
Proof.
  assert (forall f, finite f -> valQ (SFopp f) == - valQ f) as E.
  { intros f F. rewrite (val_units _ (finite_opp f F)), (val_units f F), units_opp. reflexivity. }
  intros f v [F N]. split; [now apply finite_opp|]. intros g G. specialize (N (SFopp g) (finite_opp g G)). rewrite (E g G) in N. rewrite (E f F).
  setoid_replace (- valQ f - - v) with (- (valQ f - v)) by ring. rewrite Qabs_opp. setoid_replace (valQ g - - v) with (- (- valQ g - v)) by ring. now rewrite Qabs_opp.
Qed.
Lemma relative_pos : forall f v, nearest f v -> tiny <= v -> v < vast -> Qabs (valQ f - v) <= ulp * v.
Proof.
  intros f v [F N] L H. set (x := v * inject_Z (pow2 1074)).
  assert (0 < inject_Z (pow2 1074)) as PS by (change 0 with (inject_Z 0); rewrite <- Zlt_Qlt; exact pow1074).
  assert (forall z, (z # D1074) * inject_Z (pow2 1074) == inject_Z z) as SC by (intro z; rewrite u_scale, <- u_one; reflexivity).
  assert (inject_Z (2 ^ 52) <= x) as L' by (rewrite <- SC, <- tiny_units; apply Qmult_le_r; auto).
  assert (x < inject_Z (2 ^ 2097)) as H' by (rewrite <- SC, <- vast_units; apply Qmult_lt_r; auto).
  pose proof (Qfloor_le x) as FL. pose proof (Qlt_floor x) as FU. set (n := Qfloor x) in *. rewrite inject_Z_plus in FU.
  assert (2 ^ 52 <= n)%Z as N1 by (unfold n; rewrite <- (Qfloor_Z (2 ^ 52)); now apply Qfloor_resp_le).
  assert (n < 2 ^ 2097)%Z as N2 by (rewrite Zlt_Qlt; apply (Qle_lt_trans _ x); auto).
  destruct (floor_double n N1 N2) as (g & U & HU & G & A & B & C).
  apply (Qle_trans _ _ _ (N g G)). apply (Qmult_le_r _ _ (inject_Z (pow2 1074)) PS).
  assert (inject_Z (pow2 1074) == Qabs (inject_Z (pow2 1074))) as X by (change (Qabs (inject_Z (pow2 1074))) with (inject_Z (Z.abs (pow2 1074))); rewrite Z.abs_eq by (apply Z.lt_le_incl, pow1074); reflexivity).
  rewrite X at 1. rewrite <- Qabs_Qmult. setoid_replace ((valQ g - v) * inject_Z (pow2 1074)) with (valQ g * inject_Z (pow2 1074) - x) by (unfold x; ring).
  setoid_replace (ulp * v * inject_Z (pow2 1074)) with (ulp * x) by (unfold x; ring). rewrite (val_units g G), SC.
  rewrite Zle_Qle in A, B, C. unfold Z.sub in B. rewrite !inject_Z_plus, inject_Z_opp in B. rewrite inject_Z_mult in C. change (inject_Z (-(1))) with (-1) in B.
  change (inject_Z (2 ^ 52)) with (4503599627370496 # 1) in *. unfold ulp. change (1 # 2 ^ 52) with (1 # 4503599627370496). change (inject_Z 1) with 1 in *.
  apply Qabs_Qle_condition. clear -A B C FL FU. set (p := inject_Z (2 ^ U)) in *. set (y := inject_Z n) in *. set (z := inject_Z (units g)) in *. clearbody p y z x. split; lra.
Qed.
Lemma relative : forall f v, nearest f v -> tiny <= Qabs v -> Qabs v < vast -> Qabs (valQ f - v) <= ulp * Qabs v.
Proof.
  intros f v N. apply (Qabs_case v); intros H L U; [now apply relative_pos|].
  pose proof (relative_pos _ _ (nearest_opp f v N) L U) as R.
  assert (valQ (SFopp f) == - valQ f) as E by (rewrite (val_units _ (finite_opp f (proj1 N))), (val_units f (proj1 N)), units_opp; reflexivity).
  rewrite E in R. setoid_replace (- valQ f - - v) with (- (valQ f - v)) in R by ring. now rewrite Qabs_opp in R.
Qed.

(** ** Degrees and radians *)
Lemma vast_overflow : vast <= overflow.
Proof. rewrite vast_units, overflow_units. apply u_le. vm_compute. discriminate. Qed.
Lemma tiny_small : 1000 * tiny <= 1 # (2 ^ 1000).
Proof. vm_compute. discriminate. Qed.
Lemma big_vast : 1000 * inject_Z (2 ^ 1000) < vast.
Proof. vm_compute. reflexivity. Qed.
Definition piF : Q := 7074237752028440 # 2251799813685248.
Lemma fpi_val : finite fpi /\ valQ fpi == piF.
Proof. split; [split; [reflexivity|exact I]|reflexivity]. Qed.
Lemma f180_val : finite (Z2f 180) /\ valQ (Z2f 180) == 180.
Proof. apply (Z2f_exact 180). lia. Qed.
Lemma pi_error : forall p x, aboutPi p -> Qabs (x * (p - piF)) <= (13 # 100000000000000000) * Qabs x.
Proof.
  intros p x [A B]. rewrite Qabs_Qmult, Qmult_comm. assert (Qabs (p - piF) <= 13 # 100000000000000000) as K.
  { apply Qabs_Qle_condition. unfold piF. split; lra. }
  apply Qmult_le_compat_r; auto. apply Qabs_nonneg.
Qed.
Lemma zero_float : forall f, finite f -> valQ f == 0 -> exists s, f = S754_zero s.
Proof.
  intros f F E. apply (proj1 (units_zero f F)) in E. destruct F as [V W]. destruct f as [s|s| |s m e]; try destruct W; [now exists s|]. exfalso.
  apply bounded_spec in V. cbn [units] in E. fold (pow2 (e + 1074)) in E. pose proof (pow2_pos (e + 1074) ltac:(lia)). destruct s; apply Z.mul_eq_0 in E; destruct E; lia.
Qed.
(** A product and a quotient, by numbers between 1 and 200. *)
Lemma two_steps : forall f a b, finite f -> finite a -> finite b -> 1 <= valQ a -> valQ a <= 200 -> 1 <= valQ b -> valQ b <= 200 ->
  (1 # (2 ^ 1000)) <= Qabs (valQ f) -> Qabs (valQ f) <= inject_Z (2 ^ 1000) ->
  let r := fdiv (fmul f a) b in exists m, finite r /\ Qabs (m - valQ f * valQ a) <= ulp * Qabs (valQ f * valQ a) /\ Qabs (valQ r * valQ b - m) <= ulp * Qabs m.
Proof.
  intros f a b F A B A1 A2 B1 B2 L H r. pose proof vast_overflow as VO. pose proof tiny_small as TS. pose proof big_vast as BV.
  set (small := 1 # 2 ^ 1000) in *. set (big := inject_Z (2 ^ 1000)) in *. assert (0 < tiny) as PT by reflexivity. clearbody small big.
  set (v := valQ f) in *. set (p := v * valQ a).
  assert (Qabs p == Qabs v * valQ a) as EP by (unfold p; rewrite Qabs_Qmult, (Qabs_pos (valQ a)) by lra; reflexivity).
  pose proof (Qabs_nonneg v) as NV.
  assert (Qabs v * 1 <= Qabs v * valQ a) as P1 by (rewrite !(Qmult_comm (Qabs v)); apply Qmult_le_compat_r; auto).
  assert (Qabs v * valQ a <= Qabs v * 200) as P2 by (rewrite !(Qmult_comm (Qabs v)); apply Qmult_le_compat_r; auto).
  assert (nearest (fmul f a) p) as NM by (apply fmul_nearest; auto; fold v; fold p; lra).
  pose proof (relative (fmul f a) p NM ltac:(lra) ltac:(lra)) as R1. set (m := valQ (fmul f a)) in *.
  assert (ulp == 1 # 4503599627370496) as EU by reflexivity.
  assert (Qabs p * (1 # 2) <= Qabs m /\ Qabs m <= Qabs p * 2) as [M1 M2].
  { clear -R1 EU. rewrite EU in R1. apply Qabs_Qle_condition in R1. revert R1. apply (Qabs_case p); intros ?; apply (Qabs_case m); intros ? [? ?]; split; lra. }
  set (q := m / valQ b).
  assert (~ valQ b == 0) as NB by lra.
  assert (q * valQ b == m) as EQ by (unfold q; field; exact NB).
  assert (Qabs m == Qabs q * valQ b) as EM by (rewrite <- EQ at 1; rewrite Qabs_Qmult, (Qabs_pos (valQ b)) by lra; reflexivity).
  pose proof (Qabs_nonneg q) as NQ.
  assert (Qabs q * 1 <= Qabs q * valQ b) as Q1 by (rewrite !(Qmult_comm (Qabs q)); apply Qmult_le_compat_r; auto).
  assert (Qabs q * valQ b <= Qabs q * 200) as Q2 by (rewrite !(Qmult_comm (Qabs q)); apply Qmult_le_compat_r; auto).
  assert (nearest r q) as NR by (apply fdiv_nearest; auto; [apply NM|fold m; fold q; lra]).
  pose proof (relative r q NR ltac:(lra) ltac:(lra)) as R2.
  exists m. split; [apply NR|]. split; [exact R1|].
  setoid_replace (valQ r * valQ b - m) with ((valQ r - q) * valQ b) by (rewrite <- EQ; ring).
  rewrite Qabs_Qmult, (Qabs_pos (valQ b)), EM, Qmult_assoc by lra. apply Qmult_le_compat_r; [exact R2|lra].
Qed.
Definition tolerance : Q := 1 # 1000000000000000.
Theorem C79_degrees : forall o f u p, finite f -> moderate (valQ f) -> aboutPi p ->
  exists r, mathDegrees o (FV (VFloat f) u) = Ok (plain (VFloat r)) /\ finite r /\ Qabs (valQ r * p - valQ f * 180) <= tolerance * Qabs (valQ f * 180).
Proof.
  intros o f u p F M P. exists (mathDegree f). split; [reflexivity|]. destruct f180_val as [F1 V1], fpi_val as [F2 V2]. destruct M as [M|[L H]].
  - destruct (zero_float f F M) as [s ->]. split; [split; [reflexivity|exact I]|]. cbn [valQ]. rewrite !Qmult_0_l. vm_compute. discriminate.
  - destruct (two_steps f (Z2f 180) fpi F F1 F2) as (m & FR & R1 & R2); try (rewrite ?V1, ?V2; unfold piF; lra); auto. fold (mathDegree f) in FR, R2. split; [exact FR|].
    rewrite V1 in R1. rewrite V2 in R2. set (d := valQ (mathDegree f)) in *. set (a := valQ f * 180) in *. pose proof (pi_error p d P) as E.
    setoid_replace (d * p - a) with (d * (p - piF) + (d * piF - m) + (m - a)) by ring.
    unfold tolerance, ulp in *. change (1 # 2 ^ 52) with (1 # 4503599627370496) in *. unfold piF in R2 at 1. unfold piF at 2.
    set (t := d * (p - piF)) in *. clearbody t d a. clear -E R1 R2.
    apply Qabs_Qle_condition in E, R1, R2. apply Qabs_Qle_condition. revert E R1 R2. apply (Qabs_case d); intro; apply (Qabs_case a); intro; apply (Qabs_case m); intros ? [? ?] [? ?] [? ?]; split; lra.
Qed.
Theorem C79_radians : forall o f u p, finite f -> moderate (valQ f) -> aboutPi p ->
  exists r, mathRadiansV o (FV (VFloat f) u) = Ok (plain (VFloat r)) /\ finite r /\ Qabs (valQ r * 180 - valQ f * p) <= tolerance * Qabs (valQ f * p).
Proof.
  intros o f u p F M P. exists (mathRadians f). split; [reflexivity|]. destruct f180_val as [F1 V1], fpi_val as [F2 V2]. destruct M as [M|[L H]].
  - destruct (zero_float f F M) as [s ->]. split; [split; [reflexivity|exact I]|]. cbn [valQ]. rewrite !Qmult_0_l. vm_compute. discriminate.
  - destruct (two_steps f fpi (Z2f 180) F F2 F1) as (m & FR & R1 & R2); try (rewrite ?V1, ?V2; unfold piF; lra); auto. fold (mathRadians f) in FR, R2. split; [exact FR|].
    rewrite V2 in R1. rewrite V1 in R2. set (d := valQ (mathRadians f)) in *. set (v := valQ f) in *. pose proof (pi_error p v P) as E.
    setoid_replace (v * p) with (v * (p - piF) + v * piF) by ring.
    unfold tolerance, ulp in *. change (1 # 2 ^ 52) with (1 # 4503599627370496) in *. unfold piF in R1. set (t := v * (p - piF)) in *. clearbody t. unfold piF. clearbody d v. clear -E R1 R2.
    apply Qabs_Qle_condition in E, R1, R2. apply Qabs_Qle_condition. revert E R1 R2.
    apply (Qabs_case v); intro; apply (Qabs_case (v * (7074237752028440 # 2251799813685248))); intro; apply (Qabs_case m); intro; apply (Qabs_case (t + v * (7074237752028440 # 2251799813685248))); intros ? [? ?] [? ?] [? ?]; split; lra.
Qed.

(** ** Filters with sums and differences *)
Definition step : Q := 1 # 100000000.
Lemma absolute : forall f v, nearest f v -> Qabs v <= 40000000 -> Qabs (valQ f - v) <= step.
Proof.
  intros f v N H. assert (tiny <= step) as TS by (vm_compute; discriminate). assert (40000000 < vast) as LV by (vm_compute; reflexivity).
  destruct (Qlt_le_dec (Qabs v) tiny) as [L|L].
  - apply (Qle_trans _ (Qabs (0 - v))); [apply (proj2 N (S754_zero false)); split; [reflexivity|exact I]|].
    setoid_replace (0 - v) with (- v) by ring. rewrite Qabs_opp. lra.
  - pose proof (relative f v N L ltac:(lra)) as R. unfold ulp, step in *. change (1 # 2 ^ 52) with (1 # 4503599627370496) in R. lra.
Qed.
(** The number of the document, or the constant nearest to a number. *)
Inductive numberNear (doc : cst) : expr -> Q -> Prop :=
| nn_exact : forall e v, numberOf doc e v -> numberNear doc e v
| nn_const : forall f v, nearest f v -> numberNear doc (XValue (GFloat f)) v.
(** What the code has in hand. *)
Inductive inHand : fval -> Q -> Prop :=
| ih_int : forall z, exactInt z -> inHand (VInt z) (inject_Z z)
| ih_float : forall f, finite f -> inHand (VFloat f) (valQ f).
Lemma hand_held : forall o x v, inHand x v -> held o x v.
Proof. intros o x v [z H|f F]; now constructor. Qed.
Lemma near_hand : forall o doc e v, parsesDecimals o -> wf_cst doc -> named doc -> numberNear doc e v -> Qabs v <= 40000000 ->
  allPresent doc doc e = true /\ exists x u v', oval o doc doc e = Ok (FV x u) /\ inHand x v' /\ Qabs (v' - v) <= step.
Proof.
  intros o doc e v HP WD HN H HB. assert (forall a, Qabs (a - a) <= step) as Z by (intro a; setoid_replace (a - a) with 0 by ring; vm_compute; discriminate).
  destruct H as [e v H|f v H].
  - destruct (number_val o doc e v HP WD HN H) as (P & x & u & E & K). split; auto. destruct K as [z Hz|f F|t v f HX HS EF N].
    + exists (VInt z), u, (inject_Z z). split; auto. split; [now constructor|apply Z].
    + exists (VFloat f), u, (valQ f). split; auto. split; [now constructor|apply Z].
    + exists (VFloat f), u, (valQ f). split; auto. split; [constructor; apply N|now apply absolute].
  - split; [reflexivity|]. exists (VFloat f), true, (valQ f). split; [reflexivity|]. split; [constructor; apply H|now apply absolute].
Qed.
Inductive plusMinus := Plus | Minus.
Definition opName (p : plusMinus) : bytes := match p with Plus => s2b "mathAdd" | Minus => s2b "mathSubract" end.
Definition opFun (p : plusMinus) := match p with Plus => mathAdd | Minus => mathSub end.
Definition opQ (p : plusMinus) (v w : Q) : Q := match p with Plus => v + w | Minus => v - w end.
Lemma hand_float : forall o x v, inHand x v -> exists f, asFloat o x = (f, true) /\ finite f /\ valQ f == v.
Proof.
  intros o x v [z H|f F]; [|exists f; repeat split; auto; apply F]. destruct (Z2f_exact z H) as [F V]. exists (Z2f z). auto.
Qed.
Lemma op_hand : forall o p x y v w u u', inHand x v -> inHand y w -> Qabs v <= 11000000 -> Qabs w <= 11000000 ->
  exists z q u'', opFun p o (FV x u) (FV y u') = Ok (FV z u'') /\ inHand z q /\ Qabs (q - opQ p v w) <= step.
Proof.
  intros o p x y v w u u' Hx Hy Bv Bw.
  assert ((exists a b, x = VInt a /\ y = VInt b) \/ opFun p o (FV x u) (FV y u') = generic2Floats o (FV x u) (FV y u') (match p with Plus => fadd | Minus => fsub end)) as [(a & b & -> & ->)|E].
  { destruct Hx, Hy; try (left; eexists; eexists; split; reflexivity); right; destruct p; reflexivity. }
  - inversion Hx as [a' Ha|]; subst. inversion Hy as [b' Hb|]; subst.
    assert (Z.abs a <= 11000000)%Z as Za by (rewrite Zle_Qle; exact Bv). assert (Z.abs b <= 11000000)%Z as Zb by (rewrite Zle_Qle; exact Bw).
    assert (forall q, Qabs (q - q) <= step) as Z by (intro q; setoid_replace (q - q) with 0 by ring; vm_compute; discriminate).
    destruct p; cbn [opFun opQ].
    + exists (VInt (a + b)), (inject_Z (a + b)), false. split; [|split; [constructor; unfold exactInt; lia|rewrite inject_Z_plus; apply Z]].
      unfold mathAdd, addMultShared, generic2Ints. cbn. unfold addInt. rewrite wrap64_id by (unfold in_int64; lia). reflexivity.
    + exists (VInt (a - b)), (inject_Z (a - b)), false. split; [|split; [constructor; unfold exactInt; lia|unfold Z.sub; rewrite inject_Z_plus, inject_Z_opp; apply Z]].
      unfold mathSub, generic2Ints. cbn. unfold subInt. rewrite wrap64_id by (unfold in_int64; lia). reflexivity.
  - destruct (hand_float o x v Hx) as (f & Ef & F & Vf). destruct (hand_float o y w Hy) as (g & Eg & G & Vg).
    assert (40000000 < overflow) as OV by (apply (Qlt_le_trans _ vast); [vm_compute; reflexivity|exact vast_overflow]).
    assert (isNumeric x = true /\ isNumeric y = true) as [Nx Ny] by (split; [destruct Hx|destruct Hy]; reflexivity).
    unfold generic2Floats in E. cbn [fv] in E. rewrite Ef, Eg, Nx, Ny in E. cbn [negb orb] in E.
    apply Qabs_Qle_condition in Bv, Bw.
    assert (Qabs (opQ p (valQ f) (valQ g)) <= 22000000) as B by (apply Qabs_Qle_condition; destruct p; cbn [opQ]; rewrite Vf, Vg; lra).
    assert (nearest ((match p with Plus => fadd | Minus => fsub end) f g) (opQ p (valQ f) (valQ g))) as N.
    { destruct p; cbn [opQ] in *; [apply fadd_nearest|apply fsub_nearest]; auto; lra. }
    eexists (VFloat _), (valQ _), false. split; [exact E|]. split; [constructor; apply N|].
    assert (opQ p v w == opQ p (valQ f) (valQ g)) as -> by (destruct p; cbn [opQ]; rewrite Vf, Vg; reflexivity). apply absolute; auto. lra.
Qed.
(** Numbers less than half the tolerance apart are taken for equal. *)
Lemma abs_value : forall (o : oracles) f, finite f -> finite (SFabs f) /\ valQ (SFabs f) == Qabs (valQ f).
Proof. intros o f F. destruct (C79_abs o f true F) as (r & E & R & V). unfold mathAbs in E. cbn in E. injection E as <-. auto. Qed.
Lemma floats_close : forall o x y f g, asFloat o x = (f, true) -> asFloat o y = (g, true) -> finite f -> finite g ->
  Qabs (valQ f - valQ g) <= 5 * step -> compareFloat o x y = (0%Z, true).
Proof.
  intros o x y f g Ef Eg F G H. unfold compareFloat. rewrite Ef, Eg, (finite_nan f F), (finite_nan g G). cbn [orb andb].
  assert (1 < overflow) as OV by (apply (Qlt_le_trans _ vast); [vm_compute; reflexivity|exact vast_overflow]).
  assert (5 * step < 1 # 16777216) as ST by reflexivity.
  assert (nearest (fsub f g) (valQ f - valQ g)) as N by (apply fsub_nearest; auto; lra).
  set (h := S754_finite false 4503599627370496 (-76)). assert (finite h) as FH by (split; [reflexivity|exact I]). assert (valQ h == 1 # 16777216) as VH by reflexivity.
  set (h' := S754_finite true 4503599627370496 (-76)). assert (finite h') as FH' by (split; [reflexivity|exact I]). assert (valQ h' == - (1 # 16777216)) as VH' by reflexivity.
  apply Qabs_Qle_condition in H.
  pose proof (nearest_mono _ _ _ _ N (nearest_self h FH) ltac:(lra)) as U. pose proof (nearest_mono _ _ _ _ (nearest_self h' FH') N ltac:(lra)) as L.
  destruct (abs_value o (fsub f g) (proj1 N)) as [FA VA].
  assert (valQ (SFabs (fsub f g)) < valQ EPSILON) as LT.
  { rewrite VA. apply (Qle_lt_trans _ (1 # 16777216)); [apply Qabs_Qle_condition; lra|]. fold epsQ. rewrite epsQ_val. reflexivity. }
  apply (proj1 (proj1 (q_units _ _ FA eps_finite))) in LT. rewrite (f_ltb _ _ FA eps_finite). apply Z.ltb_lt in LT. now rewrite LT.
Qed.
Lemma hand_close : forall o x y v w u u', inHand x v -> inHand y w -> Qabs (v - w) <= 5 * step -> compare o (FV x u) (FV y u') = (0%Z, true).
Proof.
  intros o x y v w u u' Hx Hy H. destruct (mixed_compare o x y v w u u' (hand_held o x v Hx) (hand_held o y w Hy)) as [(a & b & -> & ->)|HC].
  - inversion Hx; subst. inversion Hy; subst. rewrite C33_signed.
    assert (a = b) as ->; [|unfold sgn; now rewrite Z.compare_refl].
    assert (inject_Z a - inject_Z b == inject_Z (a - b)) as E by (unfold Z.sub; rewrite inject_Z_plus, inject_Z_opp; reflexivity).
    rewrite E in H. change (Qabs (inject_Z (a - b))) with (inject_Z (Z.abs (a - b))) in H. destruct (Z.eq_dec a b); auto. exfalso.
    assert (1 <= inject_Z (Z.abs (a - b))) as K by (change 1 with (inject_Z 1); rewrite <- Zle_Qle; lia). assert (5 * step < 1) by reflexivity. lra.
  - destruct (hand_float o x v Hx) as (f & Ef & F & Vf). destruct (hand_float o y w Hy) as (g & Eg & G & Vg).
    assert (Qabs (valQ f - valQ g) <= 5 * step) as H1 by (rewrite Vf, Vg; exact H).
    assert (Qabs (valQ g - valQ f) <= 5 * step) as H2 by (rewrite Qabs_Qminus; exact H1).
    destruct HC as [-> | ->]; [now apply (floats_close o x y f g)|]. rewrite (floats_close o y x g f); auto.
Qed.
Lemma op_bound : forall p v w, Qabs v <= 10000000 -> Qabs w <= 10000000 -> Qabs (opQ p v w) <= 20000000.
Proof. intros p v w A B. apply Qabs_Qle_condition in A, B. apply Qabs_Qle_condition. destruct p; cbn [opQ]; split; lra. Qed.
(** A value in hand that is near a decimal compares like the decimal. *)
Lemma hand_answer : forall o k l t s u3 q m n c w1 doc w2, let e := XCmp k l t in
  parsesDecimals o -> k <> CLike -> supported o [e] -> ws w1 -> wf_cst doc -> ws w2 -> named doc -> benign [e] doc ->
  allPresent doc doc l = true -> oval o doc doc l = Ok (FV s u3) -> inHand s q -> Qabs (q - m) <= 3 * step -> m == n # 1000000 -> Qabs m <= 20000000 ->
  numberNear doc t c -> sixPlaces c -> Qabs c <= 20000000 ->
  exists res, answers o [e] (doc_text w1 doc w2) res (fun _ => res) /\ (res = true <-> orderedQ k m c).
Proof.
  intros o k l t s u3 q m n c w1 doc w2 e HP Hk HS W1 WD W2 HN HB P1 E1 H4 D5 En BO Ht [d Ed] Bc.
  destruct (near_hand o doc t c HP WD HN Ht ltac:(lra)) as (P3 & z & u2 & c' & E3 & H3 & D3).
  assert (step == 1 # 100000000) as ES by reflexivity.
  apply (cmp_answer o k l t (FV s u3) (FV z u2)); auto.
  apply sign_holds; auto. apply Qabs_Qle_condition in D3, D5.
  destruct (Z.eq_dec n d) as [->|ND].
  - assert (m == c) as EQ by (rewrite En, Ed; reflexivity). rewrite (sgnQ_eq m c EQ). apply (hand_close o s z q c'); auto. apply Qabs_Qle_condition. split; lra.
  - destruct (number_compare o s z q c' u3 u2 HP (hand_held o s q H4) (hand_held o z c' H3)) as (i & EC & _ & EA). rewrite EC. f_equal.
    apply Qabs_Qle_condition in BO, Bc. assert (billion == 1000000000) as EB by reflexivity.
    assert (m + (1 # 1000000) <= c \/ c + (1 # 1000000) <= m) as [LT|GT].
    { rewrite En, Ed. destruct (Z_lt_le_dec n d); [left|right]; unfold Qle, Qplus; cbn [Qnum Qden]; lia. }
    + rewrite EA; [|apply Qabs_Qle_condition; lra|apply Qabs_Qle_condition; lra|rewrite Qabs_neg by lra; lra].
      assert (q < c') as X by lra. assert (m < c) as Y by lra. destruct (sgnQ_lt _ _ X) as [-> _], (sgnQ_lt _ _ Y) as [-> _]. reflexivity.
    + rewrite EA; [|apply Qabs_Qle_condition; lra|apply Qabs_Qle_condition; lra|rewrite Qabs_pos by lra; lra].
      assert (c' < q) as X by lra. assert (c < m) as Y by lra. destruct (sgnQ_lt _ _ X) as [_ ->], (sgnQ_lt _ _ Y) as [_ ->]. reflexivity.
Qed.
Theorem C79_filter : forall o k p l r t v w c w1 doc w2, let e := XCmp k (XFunc (opName p) [l; r]) t in
  parsesDecimals o -> k <> CLike -> supported o [e] -> ws w1 -> wf_cst doc -> ws w2 -> named doc -> benign [e] doc ->
  numberNear doc l v -> numberNear doc r w -> numberNear doc t c -> sixPlaces v -> sixPlaces w -> sixPlaces c ->
  Qabs v <= 10000000 -> Qabs w <= 10000000 -> Qabs c <= 20000000 ->
  exists res, answers o [e] (doc_text w1 doc w2) res (fun _ => res) /\ (res = true <-> orderedQ k (opQ p v w) c).
Proof.
  intros o k p l r t v w c w1 doc w2 e HP Hk HS W1 WD W2 HN HB Hl Hr Ht [a Ea] [b Eb] Hc Bv Bw Bc.
  destruct (near_hand o doc l v HP WD HN Hl ltac:(lra)) as (P1 & x & u & v' & E1 & H1 & D1).
  destruct (near_hand o doc r w HP WD HN Hr ltac:(lra)) as (P2 & y & u' & w' & E2 & H2 & D2).
  assert (step == 1 # 100000000) as ES by reflexivity.
  assert (Qabs v' <= 11000000) as Bv' by (apply Qabs_Qle_condition in D1, Bv; apply Qabs_Qle_condition; lra).
  assert (Qabs w' <= 11000000) as Bw' by (apply Qabs_Qle_condition in D2, Bw; apply Qabs_Qle_condition; lra).
  destruct (op_hand o p x y v' w' u u' H1 H2 Bv' Bw') as (s & q & u3 & E4 & H4 & D4).
  apply (hand_answer o k (XFunc (opName p) [l; r]) t s u3 q (opQ p v w) (match p with Plus => a + b | Minus => a - b end)%Z); auto.
  - unfold allPresent in *. cbn [frefs flat_map]. now rewrite app_nil_r, forallb_app, P1, P2.
  - cbn [oval]. replace (funLookup (opName p) funTable) with (Some (Fn2 (opFun p))) by (destruct p; reflexivity). cbv iota beta. rewrite E1. cbn [obind]. rewrite E2. cbn [obind]. exact E4.
  - apply Qabs_Qle_condition in D1, D2, D4. apply Qabs_Qle_condition. destruct p; cbn [opQ] in *; lra.
  - destruct p; cbn [opQ]; rewrite Ea, Eb; unfold Qeq, Qminus, Qplus, Qopp; cbn [Qnum Qden]; lia.
  - now apply op_bound.
Qed.

(** ** Filters with products *)
Definition fine : Q := 1 # 1000000000000.
Lemma absolute_fine : forall f v, nearest f v -> Qabs v <= 1000 -> Qabs (valQ f - v) <= fine.
Proof.
  intros f v N H. assert (tiny <= fine) as TS by (vm_compute; discriminate). assert (1000 < vast) as LV by (vm_compute; reflexivity).
  destruct (Qlt_le_dec (Qabs v) tiny) as [L|L].
  - apply (Qle_trans _ (Qabs (0 - v))); [apply (proj2 N (S754_zero false)); split; [reflexivity|exact I]|].
    setoid_replace (0 - v) with (- v) by ring. rewrite Qabs_opp. lra.
  - pose proof (relative f v N L ltac:(lra)) as R. unfold ulp, fine in *. change (1 # 2 ^ 52) with (1 # 4503599627370496) in R. lra.
Qed.
Lemma near_fine : forall o doc e v, parsesDecimals o -> wf_cst doc -> named doc -> numberNear doc e v -> Qabs v <= 1000 ->
  allPresent doc doc e = true /\ exists x u v', oval o doc doc e = Ok (FV x u) /\ inHand x v' /\ Qabs (v' - v) <= fine.
Proof.
  intros o doc e v HP WD HN H HB. assert (forall a, Qabs (a - a) <= fine) as Z by (intro a; setoid_replace (a - a) with 0 by ring; vm_compute; discriminate).
  destruct H as [e v H|f v H].
  - destruct (number_val o doc e v HP WD HN H) as (P & x & u & E & K). split; auto. destruct K as [z Hz|f F|t v f HX HS EF N].
    + exists (VInt z), u, (inject_Z z). split; auto. split; [now constructor|apply Z].
    + exists (VFloat f), u, (valQ f). split; auto. split; [now constructor|apply Z].
    + exists (VFloat f), u, (valQ f). split; auto. split; [constructor; apply N|now apply absolute_fine].
  - split; [reflexivity|]. exists (VFloat f), true, (valQ f). split; [reflexivity|]. split; [constructor; apply H|now apply absolute_fine].
Qed.
Lemma abs_product : forall a b A B, Qabs a <= A -> Qabs b <= B -> Qabs (a * b) <= A * B.
Proof.
  intros a b A B Ha Hb. rewrite Qabs_Qmult. pose proof (Qabs_nonneg a). pose proof (Qabs_nonneg b).
  apply (Qle_trans _ (A * Qabs b)); [now apply Qmult_le_compat_r|]. rewrite !(Qmult_comm A). apply Qmult_le_compat_r; lra.
Qed.
Lemma mul_hand : forall o x y v w u u', inHand x v -> inHand y w -> Qabs v <= 1001 -> Qabs w <= 1001 ->
  exists z q u'', mathMul o (FV x u) (FV y u') = Ok (FV z u'') /\ inHand z q /\ Qabs (q - v * w) <= step.
Proof.
  intros o x y v w u u' Hx Hy Bv Bw.
  assert ((exists a b, x = VInt a /\ y = VInt b) \/ mathMul o (FV x u) (FV y u') = generic2Floats o (FV x u) (FV y u') fmul) as [(a & b & -> & ->)|E].
  { destruct Hx, Hy; try (left; eexists; eexists; split; reflexivity); right; reflexivity. }
  - inversion Hx as [a' Ha|]; subst. inversion Hy as [b' Hb|]; subst.
    assert (Z.abs a <= 1001)%Z as Za by (rewrite Zle_Qle; exact Bv). assert (Z.abs b <= 1001)%Z as Zb by (rewrite Zle_Qle; exact Bw).
    assert (Z.abs (a * b) <= 1001 * 1001)%Z as Zab by (rewrite Z.abs_mul; apply Z.mul_le_mono_nonneg; lia).
    exists (VInt (a * b)), (inject_Z (a * b)), false. split; [|split; [constructor; unfold exactInt; lia|]].
    + unfold mathMul, addMultShared, generic2Ints. cbn. unfold mulInt. rewrite wrap64_id by (unfold in_int64; lia). reflexivity.
    + rewrite inject_Z_mult. setoid_replace (inject_Z a * inject_Z b - inject_Z a * inject_Z b) with 0 by ring. vm_compute. discriminate.
  - destruct (hand_float o x v Hx) as (f & Ef & F & Vf). destruct (hand_float o y w Hy) as (g & Eg & G & Vg).
    assert (40000000 < overflow) as OV by (apply (Qlt_le_trans _ vast); [vm_compute; reflexivity|exact vast_overflow]).
    assert (isNumeric x = true /\ isNumeric y = true) as [Nx Ny] by (split; [destruct Hx|destruct Hy]; reflexivity).
    unfold generic2Floats in E. cbn [fv] in E. rewrite Ef, Eg, Nx, Ny in E. cbn [negb orb] in E.
    assert (Qabs (valQ f * valQ g) <= 1001 * 1001) as B by (rewrite Vf, Vg; now apply abs_product).
    assert (nearest (fmul f g) (valQ f * valQ g)) as N by (apply fmul_nearest; auto; lra).
    exists (VFloat (fmul f g)), (valQ (fmul f g)), false. split; [exact E|]. split; [constructor; apply N|].
    assert (v * w == valQ f * valQ g) as -> by (rewrite Vf, Vg; reflexivity). apply absolute; auto. lra.
Qed.
Definition threePlaces (q : Q) : Prop := exists z, q == z # 1000.
Theorem C79_product : forall o k l r t v w c w1 doc w2, let e := XCmp k (XFunc (s2b "mathMultiply") [l; r]) t in
  parsesDecimals o -> k <> CLike -> supported o [e] -> ws w1 -> wf_cst doc -> ws w2 -> named doc -> benign [e] doc ->
  numberNear doc l v -> numberNear doc r w -> numberNear doc t c -> threePlaces v -> threePlaces w -> sixPlaces c ->
  Qabs v <= 1000 -> Qabs w <= 1000 -> Qabs c <= 20000000 ->
  exists res, answers o [e] (doc_text w1 doc w2) res (fun _ => res) /\ (res = true <-> orderedQ k (v * w) c).
Proof.
  intros o k l r t v w c w1 doc w2 e HP Hk HS W1 WD W2 HN HB Hl Hr Ht [a Ea] [b Eb] Hc Bv Bw Bc.
  destruct (near_fine o doc l v HP WD HN Hl Bv) as (P1 & x & u & v' & E1 & H1 & D1).
  destruct (near_fine o doc r w HP WD HN Hr Bw) as (P2 & y & u' & w' & E2 & H2 & D2).
  assert (step == 1 # 100000000) as ES by reflexivity. assert (fine == 1 # 1000000000000) as EF by reflexivity.
  assert (Qabs v' <= 1001) as Bv' by (apply Qabs_Qle_condition in D1, Bv; apply Qabs_Qle_condition; lra).
  assert (Qabs w' <= 1001) as Bw' by (apply Qabs_Qle_condition in D2, Bw; apply Qabs_Qle_condition; lra).
  destruct (mul_hand o x y v' w' u u' H1 H2 Bv' Bw') as (s & q & u3 & E4 & H4 & D4).
  apply (hand_answer o k (XFunc (s2b "mathMultiply") [l; r]) t s u3 q (v * w) (a * b)%Z); auto.
  - unfold allPresent in *. cbn [frefs flat_map]. now rewrite app_nil_r, forallb_app, P1, P2.
  - cbn [oval]. change (funLookup (s2b "mathMultiply") funTable) with (Some (Fn2 mathMul)). cbv iota beta. rewrite E1. cbn [obind]. rewrite E2. cbn [obind]. exact E4.
  - pose proof (abs_product _ _ _ _ D1 Bw') as X. pose proof (abs_product _ _ _ _ Bv D2) as Y. apply Qabs_Qle_condition in X, Y, D4. apply Qabs_Qle_condition.
    setoid_replace (q - v * w) with (q - v' * w' + (v' - v) * w' + v * (w' - w)) by ring. split; lra.
  - rewrite Ea, Eb. reflexivity.
  - pose proof (abs_product _ _ _ _ Bv Bw). lra.
Qed.

(** ** Cases *)
(** 0.1, 0.2 and 0.3 as doubles; their sum is not the double 0.3, and is rounded right. *)
Definition f01 : float := S754_finite false 7205759403792794 (-56).
Definition f02 : float := S754_finite false 7205759403792794 (-55).
Definition f03 : float := S754_finite false 5404319552844595 (-54).
Example C79_case : finite f01 /\ finite f02 /\ Qabs (valQ f01 + valQ f02) < overflow /\ Qabs (valQ f01 - valQ f02) < overflow
  /\ Qabs (valQ f01 * valQ f02) < overflow /\ ~ valQ f02 == 0 /\ Qabs (valQ f01 / valQ f02) < overflow /\ moderate (valQ f01) /\ aboutPi (314159265358979323846 # 100000000000000000000)
  /\ forall o u u', mathAdd o (FV (VFloat f01) u) (FV (VFloat f02) u') = Ok (plain (VFloat (S754_finite false 5404319552844596 (-54)))).
Proof.
  split; [split; [reflexivity|exact I]|]. split; [split; [reflexivity|exact I]|].
  split; [vm_compute; reflexivity|]. split; [vm_compute; reflexivity|]. split; [vm_compute; reflexivity|]. split; [vm_compute; discriminate|]. split; [vm_compute; reflexivity|].
  split; [right; split; vm_compute; discriminate|]. split; [split; vm_compute; discriminate|]. intros o u u'. vm_compute. reflexivity.
Qed.
(** The filter [a + b = 0.3] holds of [{"a":0.1,"b":0.2}]. *)
Definition bF : expr := XField 0 [s2b "b"%string].
Definition exSum : expr := XCmp CEq (XFunc (opName Plus) [aF; bF]) (XValue (GFloat f03)).
Definition docS : cst := obj [("a"%string, lit "0.1"); ("b"%string, lit "0.2")].
Example C79_filter_case : forall o, supported o [exSum] /\ wf_cst docS /\ named docS /\ benign [exSum] docS
  /\ numberNear docS aF (decimal [48%N] [49]%N 0) /\ numberNear docS bF (decimal [48%N] [50]%N 0) /\ numberNear docS (XValue (GFloat f03)) (3 # 10)
  /\ sixPlaces (decimal [48%N] [49]%N 0) /\ sixPlaces (decimal [48%N] [50]%N 0) /\ sixPlaces (3 # 10) /\ opQ Plus (decimal [48%N] [49]%N 0) (decimal [48%N] [50]%N 0) == 3 # 10.
Proof.
  intro o. split; [apply supportedb_ok; vm_compute; reflexivity|]. split; [apply wfb_ok; vm_compute; reflexivity|]. split.
  - constructor.
    + intros m [<-|[<-|[]]]; [exists (s2b "a"%string); exact (ni_plain (s2b "a"%string))|exists (s2b "b"%string); exact (ni_plain (s2b "b"%string))].
    + intros i j m m' k Hi Hj A B.
      destruct i as [|[|i]], j as [|[|j]]; auto; try (destruct i; discriminate Hi); try (destruct j; discriminate Hj); injection Hi as <-; injection Hj as <-;
        [apply (name_fun _ _ _ _ (ni_plain (s2b "a"%string))) in A; apply (name_fun _ _ _ _ (ni_plain (s2b "b"%string))) in B
        |apply (name_fun _ _ _ _ (ni_plain (s2b "b"%string))) in A; apply (name_fun _ _ _ _ (ni_plain (s2b "a"%string))) in B]; subst k; discriminate B.
    + intros m [<-|[<-|[]]]; constructor.
  - split; [apply benignb_ok; vm_compute; reflexivity|]. assert (forall c, (48 <= c <= 57)%N -> digit c) as D by auto. split; [|split; [|split]].
    + apply nn_exact. apply (no_decimal docS [s2b "a"%string] (s2b "0.1"%string)).
      * econstructor; [|constructor]. apply (ch_mem _ _ (mb "a"%string (lit "0.1"))); [now left|exact (ni_plain (s2b "a"%string))].
      * apply (num_pos [48%N] [46; 49]%N [49]%N [] 0); [constructor|constructor; [apply D; lia|constructor]|constructor].
      * vm_compute. discriminate.
    + apply nn_exact. apply (no_decimal docS [s2b "b"%string] (s2b "0.2"%string)).
      * econstructor; [|constructor]. apply (ch_mem _ _ (mb "b"%string (lit "0.2"))); [right; now left|exact (ni_plain (s2b "b"%string))].
      * apply (num_pos [48%N] [46; 50]%N [50]%N [] 0); [constructor|constructor; [apply D; lia|constructor]|constructor].
      * vm_compute. discriminate.
    + apply nn_const. destruct (Z2f_exact 3 ltac:(lia)) as [F3 V3], (Z2f_exact 10 ltac:(lia)) as [F10 V10].
      assert (fdiv (Z2f 3) (Z2f 10) = f03) as <- by (vm_compute; reflexivity). apply (nearest_eqv _ (valQ (Z2f 3) / valQ (Z2f 10))); [rewrite V3, V10; reflexivity|].
      apply fdiv_nearest; auto; [rewrite V10; discriminate|rewrite V3, V10; vm_compute; reflexivity].
    + split; [exists 100000%Z; reflexivity|]. split; [exists 200000%Z; reflexivity|]. split; [exists 300000%Z; reflexivity|reflexivity].
Qed.

(** The filter [a * b = 0.02] on the same document. *)
Definition f002 : float := fdiv (Z2f 2) (Z2f 100).
Definition exProd : expr := XCmp CEq (XFunc (s2b "mathMultiply"%string) [aF; bF]) (XValue (GFloat f002)).
Example C79_product_case : forall o, supported o [exProd] /\ benign [exProd] docS /\ numberNear docS (XValue (GFloat f002)) (2 # 100)
  /\ threePlaces (decimal [48%N] [49]%N 0) /\ threePlaces (decimal [48%N] [50]%N 0) /\ sixPlaces (2 # 100) /\ decimal [48%N] [49]%N 0 * decimal [48%N] [50]%N 0 == 2 # 100.
Proof.
  intro o. split; [apply supportedb_ok; vm_compute; reflexivity|]. split; [apply benignb_ok; vm_compute; reflexivity|]. split.
  - apply nn_const. destruct (Z2f_exact 2 ltac:(lia)) as [F2 V2], (Z2f_exact 100 ltac:(lia)) as [F100 V100].
    apply (nearest_eqv _ (valQ (Z2f 2) / valQ (Z2f 100))); [rewrite V2, V100; reflexivity|].
    apply fdiv_nearest; auto; [rewrite V100; discriminate|rewrite V2, V100; vm_compute; reflexivity].
  - split; [exists 100%Z; reflexivity|]. split; [exists 200%Z; reflexivity|]. split; [exists 20000%Z; reflexivity|reflexivity].
Qed.

Print Assumptions C79_product.
Print Assumptions C79_add.
Print Assumptions C79_sub.
Print Assumptions C79_mul.
Print Assumptions C79_div.
Print Assumptions C79_abs.
Print Assumptions C79_degrees.
Print Assumptions C79_radians.
Print Assumptions C79_filter.
