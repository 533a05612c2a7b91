(** Rounding of products and quotients to doubles. *)
From Verif Require Import Base MTokenizer MLit MFastVal PFloat SNumber PNumber PNearest.
From Coq Require Import List NArith ZArith Lia Bool.
From Coq Require Import Floats.SpecFloat.
Open Scope Z_scope.

(** [f] is the double for [z / S] units. *)
Definition isRoundS (f : float) (z S : Z) : Prop :=
  finite f /\ (forall g, finite g -> Z.abs (units f * S - z) <= Z.abs (units g * S - z))
  /\ (forall g, finite g -> units g <> units f -> Z.abs (units g * S - z) = Z.abs (units f * S - z) -> evenF f).
Lemma roundS_opp : forall f z S, isRoundS f z S -> isRoundS (SFopp f) (- z) S.
Proof.
  intros f z S (F & N & T). split; [now apply finite_opp|]. rewrite units_opp. split.
  - intros g G. specialize (N (SFopp g) (finite_opp g G)). rewrite units_opp in N. lia.
  - intros g G D E. specialize (T (SFopp g) (finite_opp g G)). rewrite units_opp in T. specialize (T ltac:(lia) ltac:(lia)).
    destruct f; auto.
Qed.

(** ** Shifting right *)
Definition stickyW (M w : Z) (r : shr_record) : Prop :=
  shr_m r = M / w /\
  (if shr_r r then w <= 2 * (M mod w) else 2 * (M mod w) < w) /\
  (if shr_s r then 2 * (M mod w) <> 0 /\ 2 * (M mod w) <> w else 2 * (M mod w) = 0 \/ 2 * (M mod w) = w).
Lemma stickyW_step : forall M w r, 0 <= M -> 0 < w -> stickyW M w r -> stickyW M (w * 2) (shr_1 r).
Proof.
  intros M w [k r s] HM P (E & R & S). cbn [shr_m shr_r shr_s] in *.
  pose proof (Z.mod_pos_bound M w P) as B.
  assert (0 <= k) as Hk by (rewrite E; apply Z.div_pos; lia).
  assert (M / (w * 2) = k / 2) as Q by (rewrite <- Z.div_div by lia; now rewrite E).
  assert (M mod (w * 2) = M mod w + (k mod 2) * w) as D by (rewrite Z.rem_mul_r by lia; rewrite <- E; lia).
  unfold stickyW. rewrite Q, D. clear Q D E HM.
  set (d := M mod w) in *. clearbody d.
  assert (forall b, shr_1 {| shr_m := k; shr_r := r; shr_s := s |} = b -> shr_m b = k / 2 /\ shr_r b = negb (k mod 2 =? 0) /\ shr_s b = (r || s)) as X.
  { intros b <-. destruct k as [|[q|q|]|q]; try lia; cbn [shr_1 shr_m shr_r shr_s].
    - repeat split.
    - repeat split; [|]. + rewrite Pos2Z.inj_xI, Z.mul_comm, Z.div_add_l by lia. reflexivity. + rewrite Pos2Z.inj_xI, Z.add_comm, Z.mul_comm, Z.mod_add by lia. reflexivity.
    - repeat split; [|]. + rewrite Pos2Z.inj_xO, Z.mul_comm, Z.div_mul by lia. reflexivity. + rewrite Pos2Z.inj_xO, Z.mul_comm, Z.mod_mul by lia. reflexivity.
    - repeat split. }
  destruct (X _ eq_refl) as (X1 & X2 & X3). rewrite X1, X2, X3. clear X X1 X2 X3.
  pose proof (Z.mod_pos_bound k 2 ltac:(lia)) as K. split; auto.
  destruct (Z.eqb_spec (k mod 2) 0) as [Y|Y]; cbn [negb]; [rewrite Y|replace (k mod 2) with 1 by lia]; destruct r, s; cbn [orb]; lia.
Qed.
Lemma stickyW_shr : forall M w r e n, 0 <= M -> 0 < w -> 0 <= n -> stickyW M w r -> exists r', shr r e n = (r', e + n) /\ stickyW M (w * 2 ^ n) r'.
Proof.
  intros M w r e n HM HW HN H. destruct n as [|p|p]; [| |lia].
  - exists r. cbn [shr]. rewrite Z.add_0_r. split; auto. change (2 ^ 0) with 1. now rewrite Z.mul_1_r.
  - exists (iter_pos shr_1 p r). split; [reflexivity|].
    apply (iter_ind shr_1 (fun n r => stickyW M (w * 2 ^ n) r)).
    + change (2 ^ 0) with 1. now rewrite Z.mul_1_r.
    + intros n y Hn HY. rewrite Z.pow_add_r by lia. change (2 ^ 1) with 2. rewrite Z.mul_assoc. apply stickyW_step; auto.
      pose proof (Z.pow_pos_nonneg 2 n ltac:(lia) Hn). nia.
Qed.
Lemma roundW_step : forall M w r, 0 <= M -> 0 < w -> stickyW M w r -> let R := round_nearest_even (shr_m r) (loc_of_shr_record r) in
  (R = M / w \/ R = M / w + 1) /\ 2 * Z.abs (R * w - M) <= w /\ (2 * Z.abs (R * w - M) = w -> Z.even R = true).
Proof.
  intros M w [k r s] HM P (E & R & S). cbn [shr_m shr_r shr_s] in *. cbv zeta.
  pose proof (Z.div_mod M w ltac:(lia)) as DM. rewrite <- E in *. pose proof (Z.mod_pos_bound M w P) as B.
  set (d := M mod w) in *. clearbody d.
  assert (2 * Z.abs (k * w - M) = 2 * d) as A0 by (rewrite DM; lia).
  assert (2 * Z.abs ((k + 1) * w - M) = 2 * (w - d)) as A1 by (rewrite DM; lia).
  destruct r, s; cbn [loc_of_shr_record round_nearest_even].
  - split; [now right|]. rewrite A1. split; lia.
  - destruct (Z.even k) eqn:EV.
    + split; [now left|]. rewrite A0. split; [lia|auto].
    + split; [now right|]. rewrite A1. split; [lia|]. intros _. now rewrite Z.even_add, EV.
  - split; [now left|]. rewrite A0. split; lia.
  - split; [now left|]. rewrite A0. split; lia.
Qed.
Lemma gridS_nearest : forall U z S R, 0 <= U -> 0 < S -> U = 0 \/ 2 ^ 52 * pow2 U * S <= z -> 2 * Z.abs (R * pow2 U * S - z) <= pow2 U * S ->
  (2 * Z.abs (R * pow2 U * S - z) = pow2 U * S -> Z.even R = true) ->
  forall g, finite g -> Z.abs (R * pow2 U * S - z) <= Z.abs (units g * S - z)
    /\ (units g <> R * pow2 U -> Z.abs (units g * S - z) = Z.abs (R * pow2 U * S - z) -> Z.even R = true).
Proof.
  intros U z S R HU HS L H T. pose proof (pow2_pos U HU) as PU.
  assert (forall k, k <> R -> pow2 U * S <= 2 * Z.abs (k * pow2 U * S - z)) as A.
  { intros k N. assert (pow2 U * S <= Z.abs (k * pow2 U * S - R * pow2 U * S)).
    { rewrite <- !Z.mul_assoc, <- Z.mul_sub_distr_r, Z.abs_mul, (Z.abs_eq (pow2 U * S)) by lia. assert (1 <= Z.abs (k - R)) by lia. assert (0 < pow2 U * S) by lia. nia. }
    lia. }
  intros g G. assert ((exists k, units g = k * pow2 U) \/ Z.abs (units g) < 2 ^ 52 * pow2 U /\ 2 ^ 52 * pow2 U * S <= z) as [[k E]|[K L']].
  { destruct L as [->|L]; [left; exists (units g); change (pow2 0) with 1; lia|]. destruct (on_grid g U G HU) as [|]; auto. }
  - rewrite E. destruct (Z.eq_dec k R) as [->|N].
    + split; [lia|]. intros X. now destruct X.
    + specialize (A k N). split; [lia|]. intros _ X. apply T. lia.
  - assert (units g * S < 2 ^ 52 * pow2 U * S) as LG by (apply Z.mul_lt_mono_pos_r; lia).
    assert (Z.abs (R * pow2 U * S - z) <= Z.abs (2 ^ 52 * pow2 U * S - z)) as C.
    { destruct (Z.eq_dec (2 ^ 52) R) as [<-|N]; [lia|]. specialize (A _ N). lia. }
    split; [lia|]. intros _ X. lia.
Qed.

Lemma zdigits : forall m, 0 <= m -> 0 <= Zdigits2 m /\ m < 2 ^ Zdigits2 m /\ (0 < m -> 2 ^ (Zdigits2 m - 1) <= m /\ 1 <= Zdigits2 m).
Proof.
  intros [|p|p] H; try lia; cbn [Zdigits2]; [split; [lia|split; [reflexivity|lia]]|]. destruct (digits_bound p). split; [lia|]. split; [auto|]. split; [auto|lia].
Qed.

(** The second part of rounding: the mantissa is put in place. *)
Lemma place : forall R e, 0 <= R <= 2 ^ 53 -> -1074 <= e <= 971 -> (e = -1074 \/ 2 ^ 52 <= R) -> ~ (R = 2 ^ 53 /\ e = 971) ->
  exists r, finite r /\ units r = R * pow2 (e + 1074) /\ (Z.even R = true -> evenF r) /\
  forall s, (let '(mrs'', e'') := shr_fexp 53 1024 R e loc_Exact in
     match shr_m mrs'' with Z0 => S754_zero s | Zpos m => if Zle_bool e'' (1024 - 53) then S754_finite s m e'' else S754_infinity s | _ => S754_nan end) = if s then SFopp r else r.
Proof.
  intros R e HR He HL HN. destruct (Z.eq_dec R (2 ^ 53)) as [E|E].
  - exists (S754_finite false (2 ^ 52) (e + 1)). rewrite E. split; [split; [apply bounded_ok; [lia|reflexivity]|exact I]|]. split; [|split].
    + cbn [units]. replace (e + 1 + 1074) with (1 + (e + 1074)) by lia. fold (pow2 (1 + (e + 1074))). rewrite (pow2_add 1) by lia. change (pow2 1) with 2. change (Zpos (2 ^ 52)) with (2 ^ 52). change (2 ^ 53) with (2 ^ 52 * 2). ring.
    + reflexivity.
    + intro s. unfold shr_fexp. replace (fexp 53 1024 (Zdigits2 (2 ^ 53) + e) - e) with 1 by (change (Zdigits2 (2 ^ 53)) with 54; unfold fexp, emin; lia).
      cbn. replace (e + 1 <=? 971) with true by (symmetry; apply Z.leb_le; lia). destruct s; reflexivity.
  - destruct R as [|p|p]; [| |lia].
    + exists (S754_zero false). split; [split; [reflexivity|exact I]|]. split; [reflexivity|]. split; [intros _; exact I|]. assert (e = -1074) as -> by lia. intros [|]; reflexivity.
    + destruct (digits_bound p) as [A B]. assert (Zpos (digits2_pos p) <= 53) as D by (apply small_digits; lia).
      assert (fexp 53 1024 (Zpos (digits2_pos p) + e) = e) as X.
      { destruct HL as [->|HL]; [unfold fexp, emin; lia|]. rewrite (digits53 p) by lia. unfold fexp, emin. lia. }
      exists (S754_finite false p e). split; [split; [|exact I]|split; [reflexivity|split; [intro Y; exact Y|]]].
      * cbn [valid_binary]. unfold bounded, canonical_mantissa. rewrite X. apply andb_true_intro. split; [apply Zeq_is_eq_bool; lia|apply Z.leb_le; lia].
      * intro s. unfold shr_fexp. cbn [Zdigits2]. rewrite X, Z.sub_diag. cbn [shr shr_record_of_loc shr_m]. replace (e <=? 1024 - 53) with true by (symmetry; apply Z.leb_le; lia). destruct s; reflexivity.
Qed.

Lemma max_small : maxU < 2 ^ 52 * pow2 2046.
Proof. pose proof (pow2_pos 2044 ltac:(lia)). unfold maxU. change 2046 with (2 + 2044). rewrite (pow2_add 2 2044) by lia. change (pow2 2) with 4. lia. Qed.
Lemma aux_gen : forall m l e K w M, 0 <= M -> 0 < w -> 0 <= K -> 0 <= e + 1074 + K -> stickyW M w (shr_record_of_loc m l) ->
  0 <= fexp 53 1024 (Zdigits2 m + e) - e -> M * pow2 (e + 1074 + K) < maxU * (pow2 K * w) ->
  exists r, (forall s, binary_round_aux 53 1024 s m e l = if s then SFopp r else r) /\ isRoundS r (M * pow2 (e + 1074 + K)) (pow2 K * w).
Proof.
  intros m l e K w M HM HW HK HE HS Hn HB.
  assert (m = M / w) as Em by (destruct HS as [X _]; rewrite <- X; destruct l as [|[]]; reflexivity).
  assert (0 <= m) as Pm by (rewrite Em; apply Z.div_pos; lia).
  destruct (zdigits m Pm) as (D0 & D1 & D2). set (d := Zdigits2 m) in *.
  unfold binary_round_aux, shr_fexp at 1. fold d.
  set (n := fexp 53 1024 (d + e) - e) in *. assert (n = Z.max (d - 53) (-1074 - e)) as En by (unfold n, fexp, emin; lia). clearbody n.
  destruct (stickyW_shr M w _ e n HM HW Hn HS) as (r & Er & Sr). rewrite Er. clear Er HS.
  pose proof (Z.pow_pos_nonneg 2 n ltac:(lia) Hn) as Pn. assert (0 < w * 2 ^ n) as Pw by (apply Z.mul_pos_pos; lia).
  destruct (roundW_step M (w * 2 ^ n) r HM Pw Sr) as (ER & HR & TR).
  set (R := round_nearest_even (shr_m r) (loc_of_shr_record r)) in *. clearbody R. clear Sr r l.
  rewrite <- Z.div_div, <- Em in ER by lia. set (q := m / 2 ^ n) in *.
  assert (0 <= q < 2 ^ 53) as Q1.
  { subst q. split; [apply Z.div_pos; lia|]. apply Z.div_lt_upper_bound; [lia|]. rewrite <- Z.pow_add_r by lia.
    apply (Z.lt_le_trans _ _ _ D1). apply Z.pow_le_mono_r; lia. }
  assert (e + n = -1074 \/ 2 ^ 52 <= q) as Q2.
  { destruct (Z_le_gt_dec (d - 53) (-1074 - e)) as [|G]; [left; lia|right]. assert (n = d - 53) as N by lia.
    assert (0 < m) as P by (destruct (Z.eq_dec m 0) as [Z0|]; [|lia]; exfalso; unfold d in G, N; rewrite Z0 in G, N; cbn [Zdigits2] in G, N; lia).
    subst q. apply Z.div_le_lower_bound; [lia|]. rewrite <- Z.pow_add_r by lia. replace (n + 52) with (d - 1) by lia. now apply D2. }
  set (U := e + n + 1074). assert (0 <= U) as HU by lia. set (S := pow2 K * w) in *.
  pose proof (pow2_pos K HK) as PK. assert (0 < S) as PS by (apply Z.mul_pos_pos; lia).
  set (t := pow2 (e + 1074 + K)) in *. assert (0 < t) as Pt by now apply pow2_pos.
  assert (pow2 U * S = w * 2 ^ n * t) as EU.
  { assert (pow2 U * pow2 K = 2 ^ n * t) as X by (unfold t; change (2 ^ n) with (pow2 n); rewrite <- !pow2_add by lia; f_equal; lia). unfold S. rewrite Z.mul_assoc, X. ring. }
  assert (R * pow2 U * S - M * t = (R * (w * 2 ^ n) - M) * t) as EZ by (rewrite <- Z.mul_assoc, EU; ring).
  assert (q * (w * 2 ^ n) <= M) as QM.
  { subst q. rewrite Em, Z.div_div by lia. rewrite Z.mul_comm. apply Z.mul_div_le. lia. }
  assert (U = 0 \/ 2 ^ 52 * pow2 U * S <= M * t) as L.
  { destruct Q2 as [Q2|Q2]; [left; lia|right]. rewrite <- Z.mul_assoc, EU, Z.mul_assoc. apply Z.mul_le_mono_nonneg_r; [lia|].
    apply (Z.le_trans _ (q * (w * 2 ^ n))); auto. apply Z.mul_le_mono_nonneg_r; lia. }
  assert (2 * Z.abs (R * pow2 U * S - M * t) <= pow2 U * S) as HR'.
  { rewrite EZ, EU, Z.abs_mul, (Z.abs_eq t), Z.mul_assoc by lia. apply Z.mul_le_mono_nonneg_r; lia. }
  pose proof (gridS_nearest U (M * t) S R HU PS L HR') as G.
  specialize (G ltac:(intro X; apply TR; rewrite EZ, EU, Z.abs_mul, (Z.abs_eq t), Z.mul_assoc in X by lia; apply Z.mul_cancel_r in X; lia)).
  pose proof (max_small) as MX.
  assert (e + n <= 971) as Hen.
  { destruct (Z_le_gt_dec (e + n) 971) as [|GT]; auto. exfalso. destruct L as [L|L]; [lia|].
    assert (pow2 2046 <= pow2 U) as PU by (apply pow2_le; lia).
    assert (2 ^ 52 * pow2 2046 * S <= 2 ^ 52 * pow2 U * S) by (apply Z.mul_le_mono_nonneg_r; [lia|]; apply Z.mul_le_mono_nonneg_l; lia).
    assert (maxU * S < 2 ^ 52 * pow2 2046 * S) by (apply Z.mul_lt_mono_pos_r; lia). lia. }
  destruct (place R (e + n)) as (f & FF & FU & FE & FB); [lia|lia| |  |].
  - destruct Q2; [now left|right; lia].
  - intros [RE EE]. assert (U = 2045) as UE by lia. rewrite UE, RE in HR'. change 2045 with (1 + 2044) in HR'. rewrite (pow2_add 1 2044) in HR' by lia. change (pow2 1) with 2 in HR'.
    assert (maxU * S = (2 ^ 54 - 1) * (pow2 2044 * S)) as X by (unfold maxU; ring). rewrite X in HB.
    replace (2 ^ 53 * (2 * pow2 2044) * S) with (2 ^ 54 * (pow2 2044 * S)) in HR' by (change (2 ^ 54) with (2 ^ 53 * 2); ring).
    replace (2 * pow2 2044 * S) with (2 * (pow2 2044 * S)) in HR' by ring. clear -HR' HB. set (y := pow2 2044 * S) in *. clearbody y. set (x := M * t) in *. clearbody x. lia.
  - exists f. split; [exact FB|]. fold U in FU. split; [exact FF|]. rewrite FU. split; intros g Hg; [apply G; auto|]. intros X Y. apply FE. now apply (G g).
Qed.

(** ** Products *)
Lemma roundS_scale : forall f z S c, 0 < c -> isRoundS f (z * c) (S * c) <-> isRoundS f z S.
Proof.
  intros f z S c Hc. unfold isRoundS.
  assert (forall x, Z.abs (x * (S * c) - z * c) = Z.abs (x * S - z) * c) as E by (intro x; replace (x * (S * c) - z * c) with ((x * S - z) * c) by ring; rewrite Z.abs_mul, (Z.abs_eq c) by lia; reflexivity).
  split; intros (F & N & T); (split; [exact F|split]); intros g G.
  - specialize (N g G). rewrite !E in N. now apply Z.mul_le_mono_pos_r in N.
  - intros D X. apply (T g G D). rewrite !E. now rewrite X.
  - rewrite !E. apply Z.mul_le_mono_pos_r; auto.
  - intros D X. rewrite !E in X. apply Z.mul_cancel_r in X; [|lia]. now apply (T g G D).
Qed.
Lemma roundS_zero : forall s S, isRoundS (S754_zero s) 0 S.
Proof. intros s S. split; [split; [reflexivity|exact I]|]. cbn [units]. split; intros; [lia|exact I]. Qed.
Lemma units_sign : forall s m e, units (S754_finite s m e) = (if s then -1 else 1) * (Zpos m * pow2 (e + 1074)).
Proof. intros s m e. cbn [units]. fold (pow2 (e + 1074)). destruct s; rewrite <- ?Pos2Z.opp_pos; ring. Qed.
Lemma round_sign : forall r z S (s : bool), isRoundS r z S -> isRoundS (if s then SFopp r else r) ((if s then -1 else 1) * z) S.
Proof. intros r z S [|] H; [replace (-1 * z) with (- z) by ring; now apply roundS_opp|now rewrite Z.mul_1_l]. Qed.
Theorem fmul_round : forall f g, finite f -> finite g -> Z.abs (units f * units g) < maxU * pow2 1074 -> isRoundS (fmul f g) (units f * units g) (pow2 1074).
Proof.
  intros f g Hf Hg H. pose proof Hf as [V F]. pose proof Hg as [V' F']. destruct f as [s|s| |s m e], g as [s'|s'| |s' m' e']; try destruct F; try destruct F'; unfold fmul; cbn [SFmul].
  - apply roundS_zero.
  - apply roundS_zero.
  - change (units (S754_zero s')) with 0. rewrite Z.mul_0_r. apply roundS_zero.
  - pose proof (bounded_spec _ _ V) as (B1 & B2 & B3). pose proof (bounded_spec _ _ V') as (C1 & C2 & C3).
    assert (units (S754_finite s m e) * units (S754_finite s' m' e') = (if xorb s s' then -1 else 1) * (Zpos (m * m') * pow2 (e + e' + 1074 + 1074))) as EZ.
    { rewrite !units_sign, Pos2Z.inj_mul. replace (e + e' + 1074 + 1074) with ((e + 1074) + (e' + 1074)) by lia. rewrite (pow2_add (e + 1074) (e' + 1074)) by lia. destruct s, s'; cbn [xorb]; ring. }
    rewrite EZ in *. clear EZ.
    pose proof (pow2_pos (e + e' + 1074 + 1074) ltac:(lia)) as P.
    destruct (aux_gen (Zpos (m * m')) loc_Exact (e + e') 1074 1 (Zpos (m * m'))) as (r & Er & HR); try lia.
    + unfold stickyW. cbn [shr_record_of_loc shr_m shr_r shr_s]. rewrite Z.div_1_r, Z.mod_1_r. lia.
    + unfold fexp, emin. destruct (zdigits (Zpos (m * m')) ltac:(lia)) as (D0 & D1 & _). set (d := Zdigits2 (Zpos (m * m'))) in *. clearbody d. rewrite Pos2Z.inj_mul in D1.
      destruct (Z_le_gt_dec 53 d) as [|G]; [lia|]. assert (2 ^ d <= 2 ^ 52) as X by (apply Z.pow_le_mono_r; lia). clear H P.
      destruct B3 as [->|B3]; [destruct C3 as [->|C3]; [lia|nia]|nia].
    + rewrite Z.mul_1_r. rewrite Z.abs_mul in H. replace (Z.abs (if xorb s s' then -1 else 1)) with 1 in H by (destruct (xorb s s'); reflexivity). lia.
    + rewrite Er. apply round_sign. now rewrite Z.mul_1_r in HR.
Qed.

(** ** Quotients *)
Lemma location_sticky : forall M w q r, 0 <= M -> 0 < w -> M = w * q + r -> 0 <= r < w -> stickyW M w (shr_record_of_loc q (new_location w r)).
Proof.
  intros M w q r HM HW E HR. assert (q = M / w) as Eq by (apply (Z.div_unique_pos M w q r); auto). assert (r = M mod w) as Em by (apply (Z.mod_unique_pos M w q r); auto).
  unfold stickyW. rewrite <- Em, <- Eq. unfold new_location. destruct (Z.even w) eqn:EV.
  - unfold new_location_even. destruct (Zeq_bool r 0) eqn:EZ; [apply Zeq_is_eq_bool in EZ; cbn [shr_record_of_loc shr_m shr_r shr_s]; lia|].
    apply Zeq_bool_neq in EZ. destruct (Z.compare_spec (2 * r) w); cbn [shr_record_of_loc shr_m shr_r shr_s]; lia.
  - assert (2 * r <> w) as NE. { intro X. rewrite <- X, Z.even_mul in EV. discriminate EV. }
    unfold new_location_odd. destruct (Zeq_bool r 0) eqn:EZ; [apply Zeq_is_eq_bool in EZ; cbn [shr_record_of_loc shr_m shr_r shr_s]; lia|].
    apply Zeq_bool_neq in EZ. destruct (Z.compare_spec (2 * r + 1) w); cbn [shr_record_of_loc shr_m shr_r shr_s]; lia.
Qed.
Theorem fdiv_round : forall f g, finite f -> finite g -> units g <> 0 -> Z.abs (units f * pow2 1074) < maxU * Z.abs (units g) ->
  isRoundS (fdiv f g) (Z.sgn (units g) * units f * pow2 1074) (Z.abs (units g)).
Proof.
  intros f g Hf Hg H0 H. pose proof Hf as [V F]. pose proof Hg as [V' F']. destruct f as [s|s| |s m e], g as [s'|s'| |s' m' e']; try destruct F; try destruct F'; unfold fdiv; cbn [SFdiv].
  - exfalso. apply H0. reflexivity.
  - change (units (S754_zero s)) with 0. rewrite Z.mul_0_r, Z.mul_0_l. apply roundS_zero.
  - exfalso. apply H0. reflexivity.
  - pose proof (bounded_spec _ _ V) as (B1 & B2 & _). pose proof (bounded_spec _ _ V') as (C1 & C2 & _).
    unfold SFdiv_core_binary. cbn [Zdigits2]. destruct (digits_bound m) as [D1 D2]. destruct (digits_bound m') as [D1' D2']. set (d := Zpos (digits2_pos m)) in *. set (d' := Zpos (digits2_pos m')) in *.
    set (e1 := Z.min (fexp 53 1024 (d + e - (d' + e'))) (e - e')). assert (e1 = Z.min (Z.max (d + e - (d' + e') - 53) (-1074)) (e - e')) as E1 by reflexivity. clearbody e1.
    set (sh := e - e' - e1). assert (0 <= sh) as Hsh by lia.
    replace (match sh with Z0 => Zpos m | Zpos _ => Z.shiftl (Zpos m) sh | Zneg _ => Z0 end) with (Zpos m * 2 ^ sh)
      by (destruct sh eqn:Es; [change (2 ^ 0) with 1; apply Z.mul_1_r|symmetry; apply Z.shiftl_mul_pow2; lia|lia]).
    pose proof (Z.pow_pos_nonneg 2 sh ltac:(lia) Hsh) as Psh. set (M := Zpos m * 2 ^ sh) in *. assert (0 < M) as PM by (apply Z.mul_pos_pos; lia).
    pose proof (Z.div_eucl_eq M (Zpos m') ltac:(lia)) as DE. pose proof (Z.mod_pos_bound M (Zpos m') ltac:(lia)) as DB. unfold Z.modulo in DB.
    destruct (Z.div_eucl M (Zpos m')) as [q r] eqn:EQ.
    assert (0 <= q) as Pq by (clear -DE DB PM; nia).
    destruct (aux_gen q (new_location (Zpos m') r) e1 1074 (Zpos m') M) as (x & Ex & HR); try lia.
    + apply location_sticky; auto; lia.
    + destruct (zdigits q Pq) as (Q0 & Q1 & _). assert (d + sh - d' <= Zdigits2 q) as X; [|unfold fexp, emin; lia].
      set (dq := Zdigits2 q) in *. clearbody dq. destruct (Z_le_gt_dec (d + sh - d') dq) as [|G]; auto. exfalso.
      assert (M < 2 ^ (dq + d')) as Y.
      { rewrite Z.pow_add_r by lia. apply (Z.lt_le_trans _ (Zpos m' * (q + 1))); [lia|]. rewrite (Z.mul_comm (2 ^ dq)). apply Z.mul_le_mono_nonneg; lia. }
      assert (2 ^ (d - 1 + sh) <= M) as W by (rewrite Z.pow_add_r by lia; apply Z.mul_le_mono_nonneg_r; lia).
      assert (2 ^ (dq + d') <= 2 ^ (d - 1 + sh)) by (apply Z.pow_le_mono_r; lia). lia.
    + assert (M * pow2 (e1 + 1074 + 1074) * pow2 (e' + 1074) = Zpos m * pow2 (e + 1074) * pow2 1074 * pow2 1074) as X.
      { unfold M. change (2 ^ sh) with (pow2 sh). rewrite <- !Z.mul_assoc, <- !pow2_add by lia. f_equal. f_equal. lia. }
      pose proof (pow2_pos 1074 ltac:(lia)) as P1074. pose proof (pow2_pos (e' + 1074) ltac:(lia)) as Pe'.
      apply (Z.mul_lt_mono_pos_r (pow2 (e' + 1074))); auto. rewrite X.
      rewrite !units_sign in H. pose proof (pow2_pos (e + 1074) ltac:(lia)) as Pe. rewrite !Z.abs_mul in H. rewrite !(Z.abs_eq (pow2 _)) in H by lia.
      replace (Z.abs (if s then -1 else 1)) with 1 in H by (destruct s; reflexivity). replace (Z.abs (if s' then -1 else 1)) with 1 in H by (destruct s'; reflexivity). cbn [Z.abs] in H. rewrite !Z.mul_1_l in H.
      replace (maxU * (pow2 1074 * Zpos m') * pow2 (e' + 1074)) with (maxU * (Zpos m' * pow2 (e' + 1074)) * pow2 1074) by ring. apply Z.mul_lt_mono_pos_r; auto.
    + rewrite Ex. pose proof (pow2_pos 1074 ltac:(lia)) as P1074. pose proof (pow2_pos (e' + 1074) ltac:(lia)) as Pe'.
      apply (roundS_scale x _ _ (pow2 (e' + 1074)) Pe') in HR.
      assert (M * pow2 (e1 + 1074 + 1074) * pow2 (e' + 1074) = Zpos m * pow2 (e + 1074) * pow2 1074 * pow2 1074) as X.
      { unfold M. change (2 ^ sh) with (pow2 sh). rewrite <- !Z.mul_assoc, <- !pow2_add by lia. f_equal. f_equal. lia. }
      rewrite X in HR. replace (pow2 1074 * Zpos m' * pow2 (e' + 1074)) with (Zpos m' * pow2 (e' + 1074) * pow2 1074) in HR by ring.
      apply (proj1 (roundS_scale x _ _ (pow2 1074) P1074)) in HR. rewrite !units_sign.
      set (a := Zpos m' * pow2 (e' + 1074)) in *. assert (0 < a) as Pa by (apply Z.mul_pos_pos; lia).
      assert (Z.abs ((if s' then -1 else 1) * a) = a) as -> by (destruct s'; lia).
      assert (Z.sgn ((if s' then -1 else 1) * a) = if s' then -1 else 1) as -> by (destruct s'; [apply Z.sgn_neg|apply Z.sgn_pos]; lia).
      replace ((if s' then -1 else 1) * ((if s then -1 else 1) * (Zpos m * pow2 (e + 1074))) * pow2 1074) with ((if xorb s s' then -1 else 1) * (Zpos m * pow2 (e + 1074) * pow2 1074)) by (destruct s, s'; cbn [xorb]; ring).
      now apply round_sign.
Qed.
