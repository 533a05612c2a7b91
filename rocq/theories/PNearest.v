(** Rounding of sums to doubles: to the nearest one, and of two to the even one. *)
From Verif Require Import Base MTokenizer MLit MFastVal PFloat SNumber PNumber.
From Coq Require Import List NArith ZArith Lia Bool.
From Coq Require Import Floats.SpecFloat.
Open Scope Z_scope.

Definition evenF (f : float) : Prop := match f with S754_finite _ m _ => Z.even (Zpos m) = true | _ => True end.
(** [f] is the double for [z] units. *)
Definition isRound (f : float) (z : Z) : Prop :=
  finite f /\ (forall g, finite g -> Z.abs (units f - z) <= Z.abs (units g - z))
  /\ (forall g, finite g -> units g <> units f -> Z.abs (units g - z) = Z.abs (units f - z) -> evenF f).

Lemma units_opp : forall f, units (SFopp f) = - units f.
Proof. intros [s|s| |s m e]; cbn [SFopp units]; auto. destruct s; cbn [negb]; rewrite <- ?Pos2Z.opp_pos; lia. Qed.
Lemma finite_opp : forall f, finite f -> finite (SFopp f).
Proof. intros [s|s| |s m e] [V F]; try contradiction; split; auto; exact I. Qed.
Lemma round_opp : forall f z, isRound f z -> isRound (SFopp f) (- z).
Proof.
  intros f z (F & N & T). split; [now apply finite_opp|]. rewrite units_opp. split.
  - intros g G. specialize (N (SFopp g) (finite_opp g G)). rewrite units_opp in N. lia.
  - intros g G D E. specialize (T (SFopp g) (finite_opp g G)). rewrite units_opp in T. specialize (T ltac:(lia) ltac:(lia)).
    destruct f; auto.
Qed.
Lemma round_self : forall f, finite f -> isRound f (units f).
Proof. intros f F. split; auto. split; intros; lia. Qed.
Lemma round_exact : forall f z, isRound f z -> (exists g, finite g /\ units g = z) -> units f = z.
Proof. intros f z (F & N & _) (g & G & E). specialize (N g G). lia. Qed.
Lemma round_ge' : forall f z g, isRound f z -> finite g -> units g <= z -> units g <= units f.
Proof. intros f z g (F & N & _) G H. specialize (N g G). lia. Qed.
Lemma round_le : forall f z g, isRound f z -> finite g -> z <= units g -> units f <= units g.
Proof. intros f z g (F & N & _) G H. specialize (N g G). lia. Qed.

(** ** Shifting right keeps what rounding needs *)
Definition sticky (m n : Z) (r : shr_record) : Prop :=
  shr_m r = m / 2 ^ n /\
  (if shr_r r then 2 ^ n <= 2 * (m mod 2 ^ n) else 2 * (m mod 2 ^ n) < 2 ^ n) /\
  (if shr_s r then 2 * (m mod 2 ^ n) <> 0 /\ 2 * (m mod 2 ^ n) <> 2 ^ n else 2 * (m mod 2 ^ n) = 0 \/ 2 * (m mod 2 ^ n) = 2 ^ n).
Lemma sticky_steps : forall m p, 0 <= m -> sticky m (Zpos p) (iter_pos shr_1 p (Build_shr_record m false false)).
Proof.
  intros m p Hm. apply (iter_ind shr_1 (sticky m)).
  - unfold sticky. cbn [shr_m shr_r shr_s]. change (2 ^ 0) with 1. rewrite Z.div_1_r, Z.mod_1_r. lia.
  - intros n [k r s] Hn (E & R & S). cbn [shr_m shr_r shr_s] in *.
    pose proof (Z.pow_pos_nonneg 2 n ltac:(lia) Hn) as P.
    pose proof (Z.div_mod m (2 ^ n) ltac:(lia)) as DM. pose proof (Z.mod_pos_bound m (2 ^ n) P) as B.
    assert (0 <= k) as Hk by (rewrite E; apply Z.div_pos; lia).
    assert (2 ^ (n + 1) = 2 * 2 ^ n) as E2 by (rewrite Z.pow_add_r by lia; lia).
    assert (m / 2 ^ (n + 1) = k / 2) as Q by (rewrite E2, Z.mul_comm, <- Z.div_div by lia; now rewrite E).
    assert (m mod 2 ^ (n + 1) = m mod 2 ^ n + (k mod 2) * 2 ^ n) as M.
    { rewrite E2, (Z.mul_comm 2), Z.rem_mul_r by lia. rewrite <- E. lia. }
    unfold sticky. rewrite Q, M, E2. clear Q M E2 DM E Hm.
    set (d := m mod 2 ^ n) in *. set (w := 2 ^ n) in *. clearbody d w.
    assert (forall b, shr_1 {| shr_m := k; shr_r := r; shr_s := s |} = b -> shr_m b = k / 2 /\ shr_r b = negb (k mod 2 =? 0) /\ shr_s b = (r || s)) as X.
    { intros b <-. destruct k as [|[q|q|]|q]; try lia; cbn [shr_1 shr_m shr_r shr_s].
      - repeat split.
      - repeat split; [|]. + rewrite Pos2Z.inj_xI, Z.mul_comm, Z.div_add_l by lia. reflexivity. + rewrite Pos2Z.inj_xI, Z.add_comm, Z.mul_comm, Z.mod_add by lia. reflexivity.
      - repeat split; [|]. + rewrite Pos2Z.inj_xO, Z.mul_comm, Z.div_mul by lia. reflexivity. + rewrite Pos2Z.inj_xO, Z.mul_comm, Z.mod_mul by lia. reflexivity.
      - repeat split. }
    destruct (X _ eq_refl) as (X1 & X2 & X3). rewrite X1, X2, X3. clear X X1 X2 X3.
    pose proof (Z.mod_pos_bound k 2 ltac:(lia)) as K. split; auto.
    destruct (Z.eqb_spec (k mod 2) 0) as [Y|Y]; cbn [negb]; [rewrite Y|replace (k mod 2) with 1 by lia]; destruct r, s; cbn [orb]; lia.
Qed.

(** Rounding [m / 2^n]. *)
Lemma round_step : forall m n r, 0 <= m -> 0 < n -> sticky m n r -> let R := round_nearest_even (shr_m r) (loc_of_shr_record r) in
  (R = m / 2 ^ n \/ R = m / 2 ^ n + 1) /\ 2 * Z.abs (R * 2 ^ n - m) <= 2 ^ n /\ (2 * Z.abs (R * 2 ^ n - m) = 2 ^ n -> Z.even R = true).
Proof.
  intros m n [k r s] Hm Hn (E & R & S). cbn [shr_m shr_r shr_s] in *. cbv zeta.
  pose proof (Z.pow_pos_nonneg 2 n ltac:(lia) ltac:(lia)) as P.
  pose proof (Z.div_mod m (2 ^ n) ltac:(lia)) as DM. rewrite <- E in *. pose proof (Z.mod_pos_bound m (2 ^ n) P) as B.
  set (d := m mod 2 ^ n) in *. clearbody d. set (w := 2 ^ n) in *. clearbody w.
  assert (2 * Z.abs (k * w - m) = 2 * d) as A0 by (rewrite DM; lia).
  assert (2 * Z.abs ((k + 1) * w - m) = 2 * (w - d)) as A1 by (rewrite DM; lia).
  destruct r, s; cbn [loc_of_shr_record round_nearest_even].
  - split; [now right|]. rewrite A1. split; lia.
  - destruct (Z.even k) eqn:EV.
    + split; [now left|]. rewrite A0. split; [lia|auto].
    + split; [now right|]. rewrite A1. split; [lia|]. intros _. now rewrite Z.even_add, EV.
  - split; [now left|]. rewrite A0. split; lia.
  - split; [now left|]. rewrite A0. split; lia.
Qed.

(** ** Where the doubles are *)
Lemma on_grid : forall g U, finite g -> 0 <= U -> (exists k, units g = k * pow2 U) \/ Z.abs (units g) < 2 ^ 52 * pow2 U.
Proof.
  intros [s|s| |s m e] U [V F] HU; try destruct F; cbn [units]; [left; exists 0; reflexivity|].
  apply bounded_spec in V. destruct V as (R & M & _).
  destruct (Z_le_gt_dec U (e + 1074)) as [L|L].
  - left. exists ((if s then Zneg m else Zpos m) * pow2 (e + 1074 - U)). unfold pow2. replace (e + 1074) with ((e + 1074 - U) + U) at 1 by lia.
    rewrite Z.pow_add_r by lia. ring.
  - right. rewrite Z.abs_mul. replace (Z.abs (if s then Zneg m else Zpos m)) with (Zpos m) by (destruct s; reflexivity).
    fold (pow2 (e + 1074)). pose proof (pow2_pos (e + 1074) ltac:(lia)) as P. rewrite (Z.abs_eq (pow2 _)) by lia.
    apply (Z.lt_le_trans _ (2 ^ 53 * pow2 (e + 1074))); [apply Z.mul_lt_mono_pos_r; lia|].
    change (2 ^ 53) with (2 ^ 52 * 2). replace (2 ^ 52 * 2 * pow2 (e + 1074)) with (2 ^ 52 * (2 * pow2 (e + 1074))) by ring.
    apply Z.mul_le_mono_nonneg_l; [lia|]. change 2 with (pow2 1). rewrite <- pow2_add by lia. apply pow2_le. lia.
Qed.
Lemma grid_nearest : forall U z R, 0 <= U -> 2 ^ 52 * pow2 U <= z -> 2 * Z.abs (R * pow2 U - z) <= pow2 U ->
  (2 * Z.abs (R * pow2 U - z) = pow2 U -> Z.even R = true) ->
  forall g, finite g -> Z.abs (R * pow2 U - z) <= Z.abs (units g - z)
    /\ (units g <> R * pow2 U -> Z.abs (units g - z) = Z.abs (R * pow2 U - z) -> Z.even R = true).
Proof.
  intros U z R HU L H T.
  assert (forall k, k <> R -> pow2 U <= 2 * Z.abs (k * pow2 U - z)) as A.
  { intros k N. assert (pow2 U <= Z.abs (k * pow2 U - R * pow2 U)).
    { pose proof (pow2_pos U HU). rewrite <- Z.mul_sub_distr_r, Z.abs_mul, (Z.abs_eq (pow2 U)) by lia. assert (1 <= Z.abs (k - R)) by lia. nia. }
    lia. }
  assert (Z.abs (R * pow2 U - z) <= Z.abs (2 ^ 52 * pow2 U - z)) as C.
  { destruct (Z.eq_dec (2 ^ 52) R) as [<-|N]; [lia|]. specialize (A _ N). lia. }
  intros g G. destruct (on_grid g U G HU) as [[k E]|S].
  - rewrite E. destruct (Z.eq_dec k R) as [->|N].
    + split; [lia|]. intros X. now destruct X.
    + specialize (A k N). split; [lia|]. intros _ X. apply T. lia.
  - split; [lia|]. intros _ X. lia.
Qed.

(** ** Rounding *)
(** Half a step above the largest double. *)
Definition maxU : Z := (2 ^ 54 - 1) * pow2 2044.
Lemma aux_round : forall m e, 2 ^ 53 <= Zpos m -> -1074 <= e -> Zpos m * pow2 (e + 1074) < maxU ->
  exists M E, (forall s, binary_round_aux 53 1024 s (Zpos m) e loc_Exact = S754_finite s M E) /\ isRound (S754_finite false M E) (Zpos m * pow2 (e + 1074)).
Proof.
  intros m e M R H. destruct (digits_bound m) as [A B]. set (d := Zpos (digits2_pos m)) in *.
  assert (54 <= d) as Hd.
  { destruct (Z_le_gt_dec 54 d); auto. assert (2 ^ d <= 2 ^ 53) by (apply Z.pow_le_mono_r; lia). lia. }
  set (n := d - 53). assert (0 < n) as Hn by lia.
  set (q := Zpos m / 2 ^ n).
  pose proof (Z.pow_pos_nonneg 2 n ltac:(lia) ltac:(lia)) as Pn.
  assert (2 ^ 52 <= q < 2 ^ 53) as Q.
  { subst q. split; [apply Z.div_le_lower_bound; [lia|]|apply Z.div_lt_upper_bound; [lia|]]; rewrite <- Z.pow_add_r by lia.
    - replace (n + 52) with (d - 1) by lia. exact B.
    - replace (n + 53) with d by lia. exact A. }
  assert (pow2 (e + n + 1074) = 2 ^ n * pow2 (e + 1074)) as EU.
  { replace (e + n + 1074) with (n + (e + 1074)) by lia. rewrite pow2_add by lia. reflexivity. }
  pose proof (pow2_pos (e + 1074) ltac:(lia)) as P1.
  assert (2 ^ 52 * pow2 (e + n + 1074) <= Zpos m * pow2 (e + 1074)) as L.
  { rewrite EU, Z.mul_assoc. apply Z.mul_le_mono_nonneg_r; [lia|]. pose proof (Z.mul_div_le (Zpos m) (2 ^ n) Pn) as X. fold q in X. nia. }
  assert (e + n <= 971) as Hen.
  { destruct (Z_le_gt_dec (e + n) 971) as [|G]; auto. exfalso.
    change (2 ^ 52) with (pow2 52) in L. rewrite <- pow2_add in L by lia. assert (pow2 (54 + 2044) <= pow2 (52 + (e + n + 1074))) as X by (apply pow2_le; lia).
    rewrite (pow2_add 54 2044) in X by lia. unfold maxU in H. change (2 ^ 54) with (pow2 54) in H. pose proof (pow2_pos 2044 ltac:(lia)). lia. }
  unfold binary_round_aux, shr_fexp at 1.
  replace (fexp 53 1024 (Zdigits2 (Zpos m) + e) - e) with n by (unfold fexp, emin, Zdigits2; fold d; lia).
  change (shr_record_of_loc (Zpos m) loc_Exact) with (Build_shr_record (Zpos m) false false).
  destruct n as [|k|k] eqn:En; try lia. cbn [shr].
  pose proof (round_step (Zpos m) (Zpos k) _ ltac:(lia) Hn (sticky_steps (Zpos m) k ltac:(lia))) as (ER & HR & TR).
  set (r := iter_pos shr_1 k _) in *. clearbody r. set (Z := round_nearest_even (shr_m r) (loc_of_shr_record r)) in *. clearbody Z. fold q in ER.
  assert (Z * pow2 (e + Zpos k + 1074) - Zpos m * pow2 (e + 1074) = (Z * 2 ^ Zpos k - Zpos m) * pow2 (e + 1074)) as EZ by (rewrite EU; ring).
  assert (forall g, finite g -> Z.abs (Z * pow2 (e + Zpos k + 1074) - Zpos m * pow2 (e + 1074)) <= Z.abs (units g - Zpos m * pow2 (e + 1074))
    /\ (units g <> Z * pow2 (e + Zpos k + 1074) -> Z.abs (units g - Zpos m * pow2 (e + 1074)) = Z.abs (Z * pow2 (e + Zpos k + 1074) - Zpos m * pow2 (e + 1074)) -> Z.even Z = true)) as G.
  { apply grid_nearest; [lia|exact L| |]; rewrite EZ, Z.abs_mul, (Z.abs_eq (pow2 (e + 1074))), EU by lia.
    - rewrite Z.mul_assoc. apply Z.mul_le_mono_nonneg_r; [lia|exact HR].
    - intros X. apply TR. rewrite Z.mul_assoc in X. apply Z.mul_cancel_r in X; lia. }
  assert (exists M E, (forall s, (let '(mrs'', e'') := shr_fexp 53 1024 Z (e + Zpos k) loc_Exact in
     match shr_m mrs'' with Z0 => S754_zero s | Zpos m => if Zle_bool e'' (1024 - 53) then S754_finite s m e'' else S754_infinity s | _ => S754_nan end) = S754_finite s M E)
     /\ bounded 53 1024 M E = true /\ Zpos M * pow2 (E + 1074) = Z * pow2 (e + Zpos k + 1074) /\ (Z.even Z = true -> Z.even (Zpos M) = true)) as (M1 & E1 & EM & EB & EV & EE).
  { destruct (Z.eq_dec Z (2 ^ 53)) as [E|E].
    - assert (e + Zpos k < 971) as Hen'.
      { destruct (Z.eq_dec (e + Zpos k) 971) as [E9|]; [|lia]. exfalso. rewrite E9, E in EZ. rewrite E9 in EU. rewrite E in HR.
        assert (2 * Z.abs (2 ^ 53 * pow2 (971 + 1074) - Zpos m * pow2 (e + 1074)) <= pow2 (971 + 1074)) as X.
        { rewrite EZ, EU, Z.abs_mul, (Z.abs_eq (pow2 (e + 1074))), Z.mul_assoc by lia. apply Z.mul_le_mono_nonneg_r; [lia|exact HR]. }
        replace (pow2 (971 + 1074)) with (2 * pow2 2044) in X by (change 2 with (pow2 1); rewrite <- pow2_add by lia; reflexivity).
        unfold maxU in H. change (2 ^ 54) with (2 * 2 ^ 53) in H. clear -X H. lia. }
      exists (2 ^ 52)%positive, (e + Zpos k + 1). rewrite E. split; [|split; [|split]].
      + intro s. unfold shr_fexp. replace (fexp 53 1024 (Zdigits2 (2 ^ 53) + (e + Zpos k)) - (e + Zpos k)) with 1 by (change (Zdigits2 (2 ^ 53)) with 54; unfold fexp, emin; lia).
        cbn. replace (e + Zpos k + 1 <=? 971) with true by (symmetry; apply Z.leb_le; lia). reflexivity.
      + apply bounded_ok; [lia|reflexivity].
      + replace (e + Zpos k + 1 + 1074) with (1 + (e + Zpos k + 1074)) by lia. rewrite (pow2_add 1) by lia. change (pow2 1) with 2. change (Zpos (2 ^ 52)) with (2 ^ 52). change (2 ^ 53) with (2 ^ 52 * 2). ring.
      + reflexivity.
    - assert (2 ^ 52 <= Z < 2 ^ 53) as HZ by lia. destruct Z as [|z|z]; try lia. pose proof (digits53 z HZ) as D.
      exists z, (e + Zpos k). split; [|split; [|split]]; auto.
      + intro s. unfold shr_fexp. replace (fexp 53 1024 (Zdigits2 (Zpos z) + (e + Zpos k)) - (e + Zpos k)) with 0 by (unfold fexp, emin, Zdigits2; rewrite D; lia). cbn [shr shr_record_of_loc shr_m].
        replace (e + Zpos k <=? 1024 - 53) with true by (symmetry; apply Z.leb_le; lia). reflexivity.
      + apply bounded_ok; [lia|auto]. }
  exists M1, E1. split; [exact EM|]. unfold isRound. cbn [units evenF]. fold (pow2 (E1 + 1074)). rewrite EV. split; [split; [exact EB|exact I]|].
  split; intros g Hg; [apply G; auto|]. intros X Y. apply EE. now apply (G g).
Qed.
Lemma pos_round : forall p e, -1074 <= e -> Zpos p * pow2 (e + 1074) < maxU ->
  exists M E, (forall s, binary_round 53 1024 s p e = S754_finite s M E) /\ isRound (S754_finite false M E) (Zpos p * pow2 (e + 1074)).
Proof.
  intros p e R H. unfold binary_round. destruct (digits_bound p) as [A B]. set (d := Zpos (digits2_pos p)) in *.
  pose proof (pow2_pos (e + 1074) ltac:(lia)) as P1.
  assert (d + e <= 1024) as Hde.
  { destruct (Z_le_gt_dec (d + e) 1024) as [|G]; auto. exfalso.
    assert (pow2 (d - 1 + (e + 1074)) <= Zpos p * pow2 (e + 1074)) as X by (rewrite pow2_add by lia; apply Z.mul_le_mono_nonneg_r; [lia|exact B]).
    assert (pow2 (54 + 2044) <= pow2 (d - 1 + (e + 1074))) as Y by (apply pow2_le; lia).
    rewrite (pow2_add 54 2044) in Y by lia. unfold maxU in H. change (2 ^ 54) with (pow2 54) in H. pose proof (pow2_pos 2044 ltac:(lia)). lia. }
  unfold shl_align. destruct (fexp 53 1024 (d + e) - e) as [|k|k] eqn:Ek; unfold fexp, emin in Ek.
  - (* exact, already in place *)
    assert (bounded 53 1024 p e = true) as BD.
    { unfold bounded, canonical_mantissa, fexp, emin. fold d. apply andb_true_intro. split; [apply Zeq_is_eq_bool; lia|apply Z.leb_le; lia]. }
    exists p, e. split; [|apply (round_self (S754_finite false p e)); split; [exact BD|exact I]].
    intro s. unfold binary_round_aux, shr_fexp. replace (fexp 53 1024 (Zdigits2 (Zpos p) + e) - e) with 0 by (unfold fexp, emin, Zdigits2; fold d; lia).
    cbn [shr shr_record_of_loc loc_of_shr_record round_nearest_even shr_m]. replace (fexp 53 1024 (Zdigits2 (Zpos p) + e) - e) with 0 by (unfold fexp, emin, Zdigits2; fold d; lia). cbn [shr shr_m].
    replace (e <=? 1024 - 53) with true by (symmetry; apply Z.leb_le; lia). reflexivity.
  - apply aux_round; auto. apply (Z.le_trans _ (2 ^ (d - 1))); auto. apply Z.pow_le_mono_r; lia.
  - set (E := e + Zneg k). assert (Zpos (digits2_pos (shift_pos k p)) = d + Zpos k) as D by now rewrite digits_shift.
    assert (bounded 53 1024 (shift_pos k p) E = true) as BD.
    { unfold bounded, canonical_mantissa, fexp, emin. rewrite D. apply andb_true_intro. split; [apply Zeq_is_eq_bool; lia|apply Z.leb_le; lia]. }
    exists (shift_pos k p), E. split.
    + intro s. replace (fexp 53 1024 (d + e)) with E by (unfold fexp, emin; lia).
      unfold binary_round_aux, shr_fexp. replace (fexp 53 1024 (Zdigits2 (Zpos (shift_pos k p)) + E) - E) with 0 by (unfold fexp, emin, Zdigits2; rewrite D; lia).
      cbn [shr shr_record_of_loc loc_of_shr_record round_nearest_even shr_m]. replace (fexp 53 1024 (Zdigits2 (Zpos (shift_pos k p)) + E) - E) with 0 by (unfold fexp, emin, Zdigits2; rewrite D; lia). cbn [shr shr_m].
      replace (E <=? 1024 - 53) with true by (symmetry; apply Z.leb_le; lia). reflexivity.
    + replace (Zpos p * pow2 (e + 1074)) with (units (S754_finite false (shift_pos k p) E)); [apply round_self; split; [exact BD|exact I]|].
      cbn [units]. rewrite shift_value. assert (e + 1074 = Zpos k + (E + 1074)) as X by (subst E; lia). assert (0 <= E + 1074) by (subst E; lia). rewrite X. rewrite (pow2_add (Zpos k) (E + 1074)) by (try lia; auto). unfold pow2. ring.
Qed.
Theorem normalize_round : forall z e b, -1074 <= e -> Z.abs z * pow2 (e + 1074) < maxU ->
  isRound (binary_normalize 53 1024 z e b) (z * pow2 (e + 1074)).
Proof.
  intros [|p|p] e b R H; cbn [binary_normalize Z.abs] in *.
  - apply (round_self (S754_zero b)). split; [reflexivity|exact I].
  - destruct (pos_round p e R H) as (M & E & X & Y). now rewrite X.
  - destruct (pos_round p e R H) as (M & E & X & Y). rewrite X. apply round_opp in Y. cbn [SFopp negb] in Y.
    now rewrite <- Pos2Z.opp_pos, Z.mul_opp_l.
Qed.

(** ** Sums and differences *)
Lemma align_units : forall s m e z, -1074 <= z <= e -> cond_Zopp s (Zpos (fst (shl_align m e z))) * pow2 (z + 1074) = units (S754_finite s m e).
Proof.
  intros s m e z H. rewrite align_value by lia. cbn [units]. unfold pow2. replace (e + 1074) with ((e - z) + (z + 1074)) by lia. rewrite (Z.pow_add_r 2 (e - z)) by lia.
  destruct s; cbn [cond_Zopp]; rewrite <- ?Pos2Z.opp_pos; ring.
Qed.
Theorem fadd_round : forall f g, finite f -> finite g -> Z.abs (units f + units g) < maxU -> isRound (fadd f g) (units f + units g).
Proof.
  intros f g Hf Hg H. pose proof Hf as [V F]. pose proof Hg as [V' F']. destruct f as [s|s| |s m e], g as [s'|s'| |s' m' e']; try destruct F; try destruct F'; unfold fadd; cbn [SFadd].
  - destruct (Bool.eqb s s'); [now apply (round_self (S754_zero s))|]. apply (round_self (S754_zero false)). split; [reflexivity|exact I].
  - change (units (S754_zero s)) with 0. rewrite Z.add_0_l. now apply round_self.
  - change (units (S754_zero s')) with 0. rewrite Z.add_0_r. now apply round_self.
  - pose proof (proj1 (bounded_spec _ _ V)). pose proof (proj1 (bounded_spec _ _ V')).
    set (z := Z.min e e'). rewrite <- (align_units s m e z), <- (align_units s' m' e' z), <- Z.mul_add_distr_r in * by lia.
    apply normalize_round; [lia|]. rewrite Z.abs_mul, (Z.abs_eq (pow2 _)) in H; auto. pose proof (pow2_pos (z + 1074) ltac:(lia)). lia.
Qed.
Theorem fsub_round : forall f g, finite f -> finite g -> Z.abs (units f - units g) < maxU -> isRound (fsub f g) (units f - units g).
Proof.
  intros f g Hf Hg H. pose proof Hf as [V F]. pose proof Hg as [V' F']. destruct f as [s|s| |s m e], g as [s'|s'| |s' m' e']; try destruct F; try destruct F'; unfold fsub; cbn [SFsub].
  - destruct (Bool.eqb s (negb s')); [now apply (round_self (S754_zero s))|]. apply (round_self (S754_zero false)). split; [reflexivity|exact I].
  - change (units (S754_zero s)) with 0. rewrite Z.sub_0_l, <- units_opp. apply (round_self (SFopp (S754_finite s' m' e'))). now apply finite_opp.
  - change (units (S754_zero s')) with 0. rewrite Z.sub_0_r. now apply round_self.
  - pose proof (proj1 (bounded_spec _ _ V)). pose proof (proj1 (bounded_spec _ _ V')).
    set (z := Z.min e e'). rewrite <- (align_units s m e z), <- (align_units s' m' e' z), <- Z.mul_sub_distr_r in * by lia.
    apply normalize_round; [lia|]. rewrite Z.abs_mul, (Z.abs_eq (pow2 _)) in H; auto. pose proof (pow2_pos (z + 1074) ltac:(lia)). lia.
Qed.
Theorem Z2f_round : forall z, Z.abs z < pow2 1023 -> isRound (Z2f z) (z * pow2 1074).
Proof.
  intros z H. unfold Z2f. apply (normalize_round z 0 false); [lia|]. rewrite Z.add_0_l. apply (Z.lt_le_trans _ (pow2 1023 * pow2 1074)); [apply Z.mul_lt_mono_pos_r; [now apply pow2_pos|exact H]|].
  rewrite <- pow2_add by lia. unfold maxU. change (1023 + 1074) with (53 + 2044). rewrite (pow2_add 53) by lia. apply Z.mul_le_mono_nonneg_r; [apply Z.lt_le_incl; now apply pow2_pos|discriminate].
Qed.
