(** Rounding to an integer by adding one half and truncating. *)
From Verif Require Import Base MTokenizer MLit MFastVal MMath PFloat SNumber PNumber PNearest SRound.
From Coq Require Import List NArith ZArith QArith Qabs Lia Lqa Bool.
From Coq Require Import Floats.SpecFloat.
Import ListNotations.
Open Scope Z_scope.

(** One and one half, in units. *)
Definition one : Z := pow2 1074.
Definition half : Z := pow2 1073.
Lemma one_half : one = 2 * half.
Proof. unfold one, half. change 2 with (pow2 1). rewrite <- pow2_add by lia. reflexivity. Qed.
Lemma half_pos : 0 < half.
Proof. apply pow2_pos. lia. Qed.
Lemma units_half : units fhalf = half.
Proof. reflexivity. Qed.
Lemma finite_half : finite fhalf.
Proof. split; [reflexivity|exact I]. Qed.

(** ** Which multiples are doubles *)
Lemma grid_float : forall k U, 0 <= k < 2 ^ 53 -> 0 <= U <= 971 + 1074 -> exists g, finite g /\ units g = k * pow2 U.
Proof.
  intros k U Hk HU. destruct k as [|p|p]; [exists (S754_zero false); split; [split; [reflexivity|exact I]|reflexivity]| |lia].
  pose proof (small_digits p ltac:(lia)) as D. destruct (digits_bound p) as [A B]. set (d := Zpos (digits2_pos p)) in *. assert (0 < d) by (subst d; lia).
  assert (forall m E, Zpos m = Zpos p * 2 ^ (U - 1074 - E) -> E <= U - 1074 -> Zpos (digits2_pos m) = d + (U - 1074 - E) ->
    fexp 53 1024 (d + (U - 1074)) = E -> exists g, finite g /\ units g = Zpos p * pow2 U) as G.
  { intros m E Em HE Ed Ef. exists (S754_finite false m E). split.
    - split; [|exact I]. cbn [valid_binary]. unfold bounded, canonical_mantissa. rewrite Ed. replace (d + (U - 1074 - E) + E) with (d + (U - 1074)) by lia. rewrite Ef.
      apply andb_true_intro. split; [now apply Zeq_is_eq_bool|]. unfold fexp, emin in Ef. apply Z.leb_le. lia.
    - cbn [units]. rewrite Em. unfold pow2. rewrite <- Z.mul_assoc, <- Z.pow_add_r by (unfold fexp, emin in Ef; lia). f_equal. f_equal. lia. }
  set (E := fexp 53 1024 (d + (U - 1074))). assert (E <= U - 1074) as HE by (unfold E, fexp, emin; lia).
  destruct (U - 1074 - E) as [|j|j] eqn:EJ; [| |lia].
  - apply (G p E); auto; rewrite EJ; [rewrite Z.pow_0_r|]; lia.
  - apply (G (shift_pos j p) E); auto; rewrite EJ; [apply shift_value|apply digits_shift].
Qed.
Lemma grid_mant : forall s U k, finite s -> 0 <= U -> 2 ^ 52 * pow2 U <= units s -> units s = k * pow2 U -> k < 2 ^ 53 -> evenF s -> Z.even k = true.
Proof.
  intros [s|s| |s m e] U k [V F] HU L E K EV; try contradiction; pose proof (pow2_pos U HU) as P; cbn [units evenF] in *; [nia|].
  apply bounded_spec in V. destruct V as (R & M & N).
  pose proof (pow2_pos (e + 1074) ltac:(lia)) as PE. fold (pow2 (e + 1074)) in *.
  destruct s; [nia|].
  destruct (Z_lt_le_dec (e + 1074) U) as [X|X].
  - exfalso. assert (2 * pow2 (e + 1074) <= pow2 U) as Y by (change 2 with (pow2 1); rewrite <- pow2_add by lia; apply pow2_le; lia).
    assert (2 ^ 52 * (2 * pow2 (e + 1074)) <= 2 ^ 52 * pow2 U) by (apply Z.mul_le_mono_nonneg_l; lia).
    change (2 ^ 53) with (2 ^ 52 * 2) in M. nia.
  - destruct (Z.eq_dec (e + 1074) U) as [Y|Y].
    + rewrite Y in E. apply Z.mul_cancel_r in E; [|lia]. now subst k.
    + assert (pow2 (e + 1074) = pow2 (e + 1074 - U - 1) * 2 * pow2 U) as Z1.
      { change 2 with (pow2 1). rewrite <- pow2_add, <- pow2_add by lia. f_equal. lia. }
      rewrite Z1 in E. replace (Zpos m * (pow2 (e + 1074 - U - 1) * 2 * pow2 U)) with (2 * (Zpos m * pow2 (e + 1074 - U - 1)) * pow2 U) in E by ring.
      apply Z.mul_cancel_r in E; [|lia]. subst k. now rewrite Z.even_mul.
Qed.
Lemma normal_form : forall f, finite f -> 2 ^ 53 <= units f -> exists m U, units f = m * pow2 U /\ 2 ^ 52 <= m < 2 ^ 53 /\ 0 <= U.
Proof.
  intros [t|t| |t m e] [V W] H; cbn [units] in *; try (exfalso; exact W); try (exfalso; lia).
  apply bounded_spec in V. destruct V as (R & M & K). pose proof (pow2_pos (e + 1074) ltac:(lia)) as P. unfold pow2 in P. destruct t; [nia|].
  exists (Zpos m), (e + 1074). split; [reflexivity|]. split; [|lia]. destruct K as [K|K]; [|lia]. exfalso. subst e. change (2 ^ (-1074 + 1074)) with 1 in *. lia.
Qed.

(** ** Truncation *)
Lemma trunc_units : forall f, finite f -> truncF f = Some (Z.quot (units f) one).
Proof.
  intros [s|s| |s m e] [V F]; try contradiction; [reflexivity|]. apply bounded_spec in V. destruct V as (R & _). cbn [truncF units]. f_equal.
  assert ((if 0 <=? e then Zpos m * 2 ^ e else Zpos m / 2 ^ (- e)) = Z.quot (Zpos m * 2 ^ (e + 1074)) one) as X.
  { pose proof (pow2_pos (e + 1074) ltac:(lia)) as P. unfold pow2 in P. unfold one, pow2. rewrite Z.quot_div_nonneg by (try lia; apply Z.pow_pos_nonneg; lia).
    destruct (Z.leb_spec 0 e) as [L|L].
    - rewrite Z.pow_add_r, Z.mul_assoc, Z.div_mul by (try lia; apply Z.pow_nonzero; lia). reflexivity.
    - assert (2 ^ 1074 = 2 ^ (- e) * 2 ^ (e + 1074)) as E by (rewrite <- Z.pow_add_r by lia; f_equal; lia). rewrite E, Z.div_mul_cancel_r by (try lia; apply Z.pow_nonzero; lia). reflexivity. }
  destruct s; rewrite X; [|reflexivity]. rewrite <- Pos2Z.opp_pos, Z.mul_opp_l, Z.quot_opp_l; [reflexivity|]. pose proof (pow2_pos 1074 ltac:(lia)). unfold one. lia.
Qed.

(** ** Adding one half *)
Definition stepBack : Z := half - pow2 1020.
Section Core.
Variables f s : float.
Hypothesis F : finite f.
Hypothesis S : isRound s (units f + half).
Hypothesis N : 0 <= units f.
Let x := units f.

Lemma core_low : forall n, 0 <= n < 2 ^ 53 -> n * one <= x + half -> n * one <= units s.
Proof. intros n Hn L. destruct (grid_float n 1074 Hn ltac:(lia)) as (g & G & E). unfold one in *. rewrite <- E in *. now apply (round_ge' s _ g S G). Qed.
Lemma core_up : forall k U, 0 <= k < 2 ^ 53 -> 0 <= U <= 1100 -> x + half <= k * pow2 U -> units s <= k * pow2 U.
Proof. intros k U Hk HU L. destruct (grid_float k U Hk ltac:(lia)) as (g & G & E). rewrite <- E in *. now apply (round_le s _ g S G). Qed.

Lemma core_small : x < 2 ^ 52 * one -> x <> stepBack -> units s / one = (x + half) / one.
Proof.
  intros L NB. pose proof half_pos as HP. pose proof one_half as OH.
  set (n := (x + half) / one).
  assert (n * one <= x + half < (n + 1) * one) as [B1 B2].
  { pose proof (Z.div_mod (x + half) one ltac:(lia)) as D. pose proof (Z.mod_pos_bound (x + half) one ltac:(lia)) as M. fold n in D. nia. }
  assert (0 <= n <= 2 ^ 52) as Hn.
  { split; [apply Z.div_pos; subst x; lia|]. assert (n < 2 ^ 52 + 1); [|lia]. apply Z.div_lt_upper_bound; [lia|]. rewrite Z.mul_add_distr_l, Z.mul_1_r. rewrite (Z.mul_comm one). lia. }
  assert (n * one <= units s) as LO by (apply core_low; [change (2 ^ 53) with (2 * 2 ^ 52)|]; lia).
  enough (units s < (n + 1) * one) as UP. { symmetry. apply (Z.div_unique_pos _ _ n (units s - n * one)); lia. }
  destruct (Z.eq_dec n 0) as [Z0|NZ].
  - (* below one half *)
    assert (half = 2 ^ 53 * pow2 1020) as EH by (change (2 ^ 53) with (pow2 53); rewrite <- pow2_add by lia; reflexivity).
    pose proof (pow2_pos 1020 ltac:(lia)) as P.
    assert (x + half <= (2 ^ 53 - 1) * pow2 1021) as X.
    { assert (pow2 1021 = 2 * pow2 1020) as E1 by (change 2 with (pow2 1); rewrite <- pow2_add by lia; reflexivity). rewrite E1.
      unfold stepBack in NB. rewrite Z0 in B2. destruct (on_grid f 1020 F ltac:(lia)) as [[k E]|G]; [fold x in E|fold x in G]; subst n.
      - rewrite E in *. assert (k < 2 ^ 53) by nia. assert (k <> 2 ^ 53 - 1) by (intros ->; apply NB; nia). nia.
      - change (2 ^ 53) with (2 * 2 ^ 52) in *. lia. }
    pose proof (core_up (2 ^ 53 - 1) 1021 ltac:(lia) ltac:(lia) X) as Y. rewrite Z0.
    assert (one = 2 ^ 53 * pow2 1021) as EO by (change (2 ^ 53) with (pow2 53); rewrite <- pow2_add by lia; reflexivity).
    pose proof (pow2_pos 1021 ltac:(lia)). lia.
  - destruct (Z_le_gt_dec x (n * one)) as [LE|GT].
    + destruct (Z.eq_dec n (2 ^ 52)) as [E52|N52].
      * (* the last one below 2^52 *)
        destruct (on_grid f 1073 F ltac:(lia)) as [[k E]|G]; [fold x in E|fold x in G]; fold half in *; [|rewrite E52 in *; lia].
        assert (x + half <= 2 ^ 52 * pow2 1074) as X. { fold one. rewrite E in *. rewrite OH in *. assert (k < 2 * 2 ^ 52) by nia. nia. }
        pose proof (core_up (2 ^ 52) 1074 ltac:(lia) ltac:(lia) X) as Y. fold one in Y. rewrite E52. lia.
      * assert (x + half <= (2 * n + 1) * pow2 1073) as X by (fold half; lia).
        pose proof (core_up (2 * n + 1) 1073 ltac:(change (2 ^ 53) with (2 * 2 ^ 52); lia) ltac:(lia) X) as Y. fold half in Y. lia.
    + (* above an integer: the sum is a double *)
      assert (exists m U, x = m * pow2 U /\ 2 ^ 52 <= m < 2 ^ 53 /\ 0 <= U) as (m & U & EX & HM & HU).
      { apply (normal_form f F). fold x. assert (2 ^ 53 < one) by reflexivity. nia. }
      pose proof (pow2_pos U HU) as PU.
      assert (U < 1074) as U1.
      { destruct (Z_lt_ge_dec U 1074); auto. exfalso. assert (one <= pow2 U) by (apply pow2_le; lia). nia. }
      assert (1074 <= 53 + U) as U2.
      { destruct (Z_le_gt_dec 1074 (53 + U)); auto. exfalso. assert (pow2 (53 + U) <= one) as Q by (apply pow2_le; lia). rewrite pow2_add in Q by lia. change (pow2 53) with (2 ^ 53) in Q. nia. }
      assert (2 ^ 53 * pow2 U = pow2 (53 + U - 1074) * one) as EQ.
      { unfold one. change (2 ^ 53) with (pow2 53). rewrite <- (pow2_add 53 U), <- (pow2_add (53 + U - 1074) 1074) by lia. f_equal. lia. }
      assert (n + 1 <= pow2 (53 + U - 1074)) as N1 by nia.
      assert (half = pow2 (1073 - U) * pow2 U) as EH by (unfold half; rewrite <- pow2_add by lia; f_equal; lia).
      assert (x + half = (m + pow2 (1073 - U)) * pow2 U) as ES by (rewrite EX, EH; ring).
      pose proof (pow2_pos (1073 - U) ltac:(lia)).
      assert (m + pow2 (1073 - U) < 2 ^ 53) as LT.
      { apply (Z.mul_lt_mono_pos_r (pow2 U)); [exact PU|]. rewrite <- ES, EQ. apply (Z.lt_le_trans _ ((n + 1) * one)); [exact B2|]. apply Z.mul_le_mono_nonneg_r; [lia|exact N1]. }
      pose proof (core_up (m + pow2 (1073 - U)) U ltac:(lia) ltac:(lia) ltac:(lia)) as Y. lia.
Qed.
Lemma core_between' : x <= units s <= x + one.
Proof. destruct S as (_ & NR & _). specialize (NR f F). fold x in NR. pose proof half_pos. pose proof one_half. lia. Qed.
Lemma core_mid : forall k, x = k * one -> 2 ^ 52 <= k < 2 ^ 53 -> units s = (if Z.even k then k else k + 1) * one.
Proof.
  intros k E K. pose proof core_between' as B. pose proof half_pos as HP. pose proof one_half as OH. pose proof S as (FS & _ & T).
  assert (units s = k * one \/ units s = (k + 1) * one) as [Q|Q].
  { destruct (on_grid s 1074 FS ltac:(lia)) as [[j EJ]|G]; fold one in *; [rewrite EJ, E in *; assert (k <= j <= k + 1) by nia|nia].
    assert (j = k \/ j = k + 1) as [-> | ->] by lia; auto. }
  - destruct (Z.even k) eqn:EV; auto. exfalso.
    assert (evenF s) as ES.
    { assert (exists g, finite g /\ units g = (k + 1) * one) as (g & G & EG).
      { destruct (Z.eq_dec (k + 1) (2 ^ 53)) as [E53|N53].
        - destruct (grid_float (2 ^ 52) 1075 ltac:(lia) ltac:(lia)) as (g & G & EG). exists g. split; auto. rewrite EG, E53. unfold one. change 1075 with (1 + 1074). rewrite pow2_add by lia. change (pow2 1) with 2. change (2 ^ 53) with (2 ^ 52 * 2). ring.
        - apply (grid_float (k + 1) 1074); lia. }
      apply (T g G); rewrite ?EG, ?Q; [nia|]. fold x. rewrite E, OH. lia. }
    pose proof (grid_mant s 1074 k FS ltac:(lia) ltac:(fold one; nia) Q ltac:(lia) ES). congruence.
  - destruct (Z.even k) eqn:EV; auto. exfalso.
    assert (k + 1 < 2 ^ 53) as K1. { destruct (Z.eq_dec (k + 1) (2 ^ 53)) as [E1|]; [|lia]. replace k with (2 ^ 53 - 1) in EV by lia. discriminate EV. }
    assert (evenF s) as ES. { apply (T f F); fold x; rewrite ?Q, ?E; [nia|]. rewrite OH. lia. }
    pose proof (grid_mant s 1074 (k + 1) FS ltac:(lia) ltac:(fold one; nia) Q K1 ES) as EK. rewrite Z.even_add, EV in EK. discriminate EK.
Qed.
Lemma core_large : 2 ^ 53 * one <= x -> units s = x.
Proof.
  intros L. pose proof core_between' as B. pose proof half_pos as HP. pose proof one_half as OH. pose proof S as (FS & _ & _).
  assert (pow2 1075 = 2 * one) as E2 by (change 2 with (pow2 1); unfold one; rewrite <- pow2_add by lia; reflexivity).
  change (2 ^ 53) with (2 ^ 52 * 2) in L.
  destruct (on_grid f 1075 F ltac:(lia)) as [[k E]|G]; [|rewrite E2 in G; fold x in G; lia].
  destruct (on_grid s 1075 FS ltac:(lia)) as [[j EJ]|G]; [|rewrite E2 in G; lia].
  fold x in E. rewrite E2 in *. rewrite E, EJ in *. assert (j = k) by nia. now subst j.
Qed.
Lemma core_back : x = stepBack -> units s = one.
Proof.
  intros E. pose proof S as (FS & NR & T). pose proof (pow2_pos 1020 ltac:(lia)) as P.
  assert (pow2 1021 = 2 * pow2 1020) as E1 by (change 2 with (pow2 1); rewrite <- pow2_add by lia; reflexivity).
  assert (one = 2 ^ 53 * pow2 1021) as EO by (change (2 ^ 53) with (pow2 53); rewrite <- pow2_add by lia; reflexivity).
  pose proof one_half as OH. unfold stepBack in E.
  destruct (grid_float 1 1074 ltac:(lia) ltac:(lia)) as (g & G & EG). fold one in EG. rewrite Z.mul_1_l in EG.
  pose proof (NR g G) as X. rewrite EG in X. fold x in X, T, NR.
  assert (one - pow2 1021 <= units s <= one) as B by lia.
  destruct (on_grid s 1021 FS ltac:(lia)) as [[j EJ]|Y]; [|change (2 ^ 53) with (2 * 2 ^ 52) in EO; lia].
  assert (j = 2 ^ 53 \/ j = 2 ^ 53 - 1) as [J|J] by (rewrite EJ in B; rewrite EO in B; nia); [rewrite EJ, J; auto|]. exfalso.
  assert (evenF s) as ES. { apply (T g G); rewrite EG, EJ, J, EO; [lia|]. lia. }
  pose proof (grid_mant s 1021 j FS ltac:(lia) ltac:(rewrite EJ, J; change (2 ^ 53) with (2 * 2 ^ 52); nia) EJ ltac:(lia) ES) as X1. rewrite J in X1. discriminate X1.
Qed.
End Core.

(** ** The result, from the magnitude *)
Definition absRes (x : Z) : Z :=
  if x <? 2 ^ 52 * one then (if x =? stepBack then 1 else (x + half) / one)
  else if x <? 2 ^ 53 * one then (if Z.even (x / one) then x / one else x / one + 1)
  else x / one.
Lemma int_above : forall f U, finite f -> 0 <= U -> 2 ^ 52 * pow2 U <= units f -> exists k, units f = k * pow2 U.
Proof. intros f U F HU L. destruct (on_grid f U F HU) as [E|G]; [exact E|lia]. Qed.
Lemma one_pos : 0 < one.
Proof. apply pow2_pos. lia. Qed.
Lemma core_all : forall f s, finite f -> isRound s (units f + half) -> 0 <= units f -> units s / one = absRes (units f).
Proof.
  intros f s F S N. unfold absRes. pose proof one_pos as OP.
  destruct (Z.ltb_spec (units f) (2 ^ 52 * one)) as [A|A].
  - destruct (Z.eqb_spec (units f) stepBack) as [B|B].
    + rewrite (core_back f s S N B). apply Z.div_same. lia.
    + now apply core_small.
  - destruct (int_above f 1074 F ltac:(lia) A) as [k E]. fold one in E.
    assert (units f / one = k) as EK by (rewrite E; apply Z.div_mul; lia). rewrite EK.
    destruct (Z.ltb_spec (units f) (2 ^ 53 * one)) as [B|B].
    + rewrite (core_mid f s F S N k E); [apply Z.div_mul; lia|]. rewrite E in A, B. split; [apply (Z.mul_le_mono_pos_r _ _ one)|apply (Z.mul_lt_mono_pos_r one)]; auto.
    + rewrite (core_large f s F S N B), E. apply Z.div_mul. lia.
Qed.
Lemma absRes_float : forall f, finite f -> 0 <= units f -> exists g, finite g /\ units g = absRes (units f) * one.
Proof.
  intros f F N. unfold absRes. pose proof one_pos as OP. pose proof one_half as OH.
  destruct (Z.ltb_spec (units f) (2 ^ 52 * one)) as [A|A].
  - destruct (Z.eqb_spec (units f) stepBack) as [B|B]; [apply (grid_float 1 1074); lia|].
    apply (grid_float ((units f + half) / one) 1074); [|lia]. split; [apply Z.div_pos; lia|]. apply Z.div_lt_upper_bound; [lia|]. change (2 ^ 53) with (2 ^ 52 * 2). lia.
  - destruct (int_above f 1074 F ltac:(lia) A) as [k E]. fold one in E.
    assert (units f / one = k) as EK by (rewrite E; apply Z.div_mul; lia). rewrite EK.
    destruct (Z.ltb_spec (units f) (2 ^ 53 * one)) as [B|B]; [|exists f; auto].
    destruct (Z.even k); [exists f; auto|].
    assert (k < 2 ^ 53) as K by (apply (Z.mul_lt_mono_pos_r one); lia). assert (0 <= k) by (rewrite E in N; nia).
    destruct (Z.eq_dec (k + 1) (2 ^ 53)) as [E53|N53].
    + destruct (grid_float (2 ^ 52) 1075 ltac:(lia) ltac:(lia)) as (g & G & EG). exists g. split; auto. rewrite EG, E53. unfold one. change 1075 with (1 + 1074). rewrite pow2_add by lia. change (pow2 1) with 2. change (2 ^ 53) with (2 ^ 52 * 2). ring.
    + apply (grid_float (k + 1) 1074); lia.
Qed.
Lemma absRes_bounds : forall x, 0 <= x -> 0 <= absRes x /\ (x < 2 ^ 63 * one -> absRes x < 2 ^ 63) /\ (2 ^ 63 * one <= x -> absRes x = x / one).
Proof.
  intros x N. unfold absRes. pose proof one_pos as OP. pose proof one_half as OH.
  assert (0 <= x / one) by (apply Z.div_pos; lia).
  destruct (Z.ltb_spec x (2 ^ 52 * one)) as [A|A].
  - destruct (Z.eqb_spec x stepBack); [split; [lia|split; [reflexivity|intros; nia]]|].
    split; [apply Z.div_pos; lia|]. split; [|intros; nia]. intros _. apply Z.div_lt_upper_bound; [lia|]. change (2 ^ 63) with (2 ^ 52 * 2 ^ 11). lia.
  - destruct (Z.ltb_spec x (2 ^ 53 * one)) as [B|B].
    + assert (x / one < 2 ^ 53) by (apply Z.div_lt_upper_bound; lia). split; [destruct (Z.even (x / one)); lia|]. split; [destruct (Z.even (x / one)); lia|intros; nia].
    + split; [lia|]. split; auto. intros. apply Z.div_lt_upper_bound; lia.
Qed.

(** ** The function *)
Lemma finite_max : forall f, finite f -> Z.abs (units f) + half < maxU.
Proof.
  intros f F. assert (Z.abs (units f) <= (2 ^ 53 - 1) * pow2 2045) as X.
  { destruct f as [s|s| |s m e]; destruct F as [V W]; try (exfalso; exact W); cbn [units].
    - rewrite Z.abs_0. pose proof (pow2_pos 2045 ltac:(lia)). lia.
    - apply bounded_spec in V. destruct V as (R & M & _). rewrite Z.abs_mul. replace (Z.abs (if s then Zneg m else Zpos m)) with (Zpos m) by (destruct s; reflexivity).
      fold (pow2 (e + 1074)). pose proof (pow2_pos (e + 1074) ltac:(lia)). rewrite (Z.abs_eq (pow2 _)) by lia. apply Z.mul_le_mono_nonneg; try lia. apply pow2_le. lia. }
  assert (pow2 2045 = 2 * pow2 2044) as E by (change 2 with (pow2 1); rewrite <- pow2_add by lia; reflexivity).
  assert (half < pow2 2044) as H by reflexivity. rewrite E in X. unfold maxU. change (2 ^ 54) with (2 * 2 ^ 53). lia.
Qed.
Definition resZ (x : Z) : Z := Z.sgn x * absRes (Z.abs x).
Lemma added : forall f, finite f -> exists s, finite s /\ (if fltb f (Z2f 0) then fsub f fhalf else fadd f fhalf) = s /\ Z.quot (units s) one = (if units f <? 0 then -1 else 1) * absRes (Z.abs (units f)).
Proof.
  intros f F. pose proof (finite_max f F) as M. pose proof half_pos as HP. pose proof one_pos as OP.
  rewrite (f_ltb f (Z2f 0) F ltac:(split; [reflexivity|exact I])). change (units (Z2f 0)) with 0.
  destruct (Z.ltb_spec (units f) 0) as [L|L].
  - pose proof (fsub_round f fhalf F finite_half) as R. rewrite units_half in R. specialize (R ltac:(lia)). exists (fsub f fhalf). split; [apply R|]. split; auto.
    apply round_opp in R. replace (- (units f - half)) with (units (SFopp f) + half) in R by (rewrite units_opp; lia).
    pose proof (core_all (SFopp f) _ (finite_opp f F) R ltac:(rewrite units_opp; lia)) as C. rewrite !units_opp in C.
    replace (Z.abs (units f)) with (- units f) by lia. rewrite <- C.
    assert (0 <= - units (fsub f fhalf)) as NN.
    { destruct (grid_float 0 1074 ltac:(lia) ltac:(lia)) as (g & G & EG). pose proof (round_ge' _ _ g R G) as X. rewrite !units_opp in X. apply X in EG || (rewrite EG in X; apply X; lia). }
    replace (units (fsub f fhalf)) with (- (- units (fsub f fhalf))) at 1 by lia. rewrite Z.quot_opp_l by lia. rewrite Z.quot_div_nonneg by lia. lia.
  - pose proof (fadd_round f fhalf F finite_half) as R. rewrite units_half in R. specialize (R ltac:(lia)). exists (fadd f fhalf). split; [apply R|]. split; auto.
    pose proof (core_all f _ F R L) as C. replace (Z.abs (units f)) with (units f) by lia. rewrite <- C, Z.mul_1_l.
    apply Z.quot_div_nonneg; [|lia]. destruct (grid_float 0 1074 ltac:(lia) ltac:(lia)) as (g & G & EG). pose proof (round_ge' _ _ g R G) as X. lia.
Qed.
Theorem round_units : forall o f, finite f -> - (2 ^ 63 * one) <= units f < 2 ^ 63 * one ->
  finite (floatMathRound o f) /\ units (floatMathRound o f) = resZ (units f) * one.
Proof.
  intros o f F B. destruct (added f F) as (s & FS & ES & QS). pose proof one_pos as OP.
  destruct (absRes_bounds (Z.abs (units f)) ltac:(lia)) as (A0 & A1 & A2).
  assert (absRes (Z.abs (units f)) <= 2 ^ 63) as A3.
  { destruct (Z_lt_ge_dec (Z.abs (units f)) (2 ^ 63 * one)) as [X|X]; [specialize (A1 X); lia|]. rewrite A2 by lia.
    apply Z.div_le_upper_bound; lia. }
  assert (resZ (units f) = (if units f <? 0 then -1 else 1) * absRes (Z.abs (units f))) as ER.
  { unfold resZ. destruct (Z.ltb_spec (units f) 0) as [L|L]; [rewrite Z.sgn_neg by lia; reflexivity|].
    destruct (Z.eq_dec (units f) 0) as [E|E]; [rewrite E|rewrite Z.sgn_pos by lia; reflexivity]. cbn [Z.abs Z.sgn]. symmetry. reflexivity. }
  assert (f2i o s = resZ (units f)) as EF.
  { unfold f2i. rewrite (trunc_units s FS), QS, <- ER. unfold minInt64, maxInt64.
    replace ((- 2 ^ 63 <=? resZ (units f)) && (resZ (units f) <=? 2 ^ 63 - 1)) with true; auto. symmetry. apply andb_true_intro.
    rewrite ER. split; apply Z.leb_le; destruct (Z.ltb_spec (units f) 0) as [L|L]; try lia. }
  assert (floatMathRound o f = Z2f (resZ (units f))) as EM.
  { unfold floatMathRound. destruct (fltb f (Z2f 0)); rewrite ES, EF; reflexivity. }
  rewrite EM. assert (isRound (Z2f (resZ (units f))) (resZ (units f) * pow2 1074)) as R.
  { apply Z2f_round. apply (Z.le_lt_trans _ (2 ^ 63)); [rewrite ER; destruct (units f <? 0); lia|reflexivity]. }
  split; [apply R|]. fold one in R. apply (round_exact _ _ R). rewrite ER.
  destruct (Z.ltb_spec (units f) 0) as [L|L].
  - destruct (absRes_float (SFopp f) (finite_opp f F) ltac:(rewrite units_opp; lia)) as (g & G & EG). exists (SFopp g). split; [now apply finite_opp|].
    rewrite units_opp, EG, units_opp. replace (Z.abs (units f)) with (- units f) by lia. lia.
  - destruct (absRes_float f F L) as (g & G & EG). exists g. split; auto. rewrite EG. replace (Z.abs (units f)) with (units f) by lia. lia.
Qed.
(** Beyond 64 bits the result is within them. *)
Theorem round_outside : forall o f, finite f -> 2 ^ 63 * one < Z.abs (units f) ->
  finite (floatMathRound o f) /\ Z.abs (units (floatMathRound o f)) <= 2 ^ 63 * one.
Proof.
  intros o f F B. destruct (added f F) as (s & FS & ES & QS). pose proof one_pos as OP.
  destruct (absRes_bounds (Z.abs (units f)) ltac:(lia)) as (A0 & A1 & A2). specialize (A2 ltac:(lia)).
  assert (2 ^ 63 < absRes (Z.abs (units f))) as A3.
  { rewrite A2. destruct (int_above (SFabs f) 1074) as [k E].
    - destruct F as [V W]. destruct f; try (exfalso; exact W); split; auto; exact I.
    - lia.
    - fold one. assert (units (SFabs f) = Z.abs (units f)) as X.
      { destruct f as [t|t| |t m e]; auto. cbn [SFabs units]. destruct F as [V _]. apply bounded_spec in V. pose proof (pow2_pos (e + 1074) ltac:(lia)) as P. unfold pow2 in P. destruct t; nia. }
      rewrite X. change (2 ^ 63) with (2 ^ 52 * 2 ^ 11) in B. nia.
    - assert (units (SFabs f) = Z.abs (units f)) as X.
      { destruct f as [t|t| |t m e]; auto. cbn [SFabs units]. destruct F as [V _]. apply bounded_spec in V. pose proof (pow2_pos (e + 1074) ltac:(lia)) as P. unfold pow2 in P. destruct t; nia. }
      rewrite X in E. fold one in E. rewrite E, Z.div_mul in * by lia. apply (Z.mul_lt_mono_pos_r one); auto. }
  assert (exists w, f2i o s = wrap64 w) as [w EF].
  { unfold f2i. rewrite (trunc_units s FS), QS. unfold minInt64, maxInt64.
    replace ((- 2 ^ 63 <=? (if units f <? 0 then -1 else 1) * absRes (Z.abs (units f))) && ((if units f <? 0 then -1 else 1) * absRes (Z.abs (units f)) <=? 2 ^ 63 - 1)) with false; [eexists; reflexivity|].
    symmetry. apply andb_false_iff. destruct (units f <? 0); [left|right]; apply Z.leb_gt; lia. }
  assert (floatMathRound o f = Z2f (wrap64 w)) as EM.
  { unfold floatMathRound. destruct (fltb f (Z2f 0)); rewrite ES, EF; reflexivity. }
  rewrite EM. assert (- 2 ^ 63 <= wrap64 w < 2 ^ 63) as W.
  { unfold wrap64. pose proof (Z.mod_pos_bound (w + 2 ^ 63) (2 ^ 64) ltac:(lia)). lia. }
  assert (isRound (Z2f (wrap64 w)) (wrap64 w * one)) as R.
  { apply Z2f_round. apply (Z.le_lt_trans _ (2 ^ 63)); [lia|reflexivity]. }
  split; [apply R|].
  assert (exists g, finite g /\ units g = 2 ^ 63 * one) as (g & G & EG).
  { destruct (grid_float (2 ^ 52) 1085 ltac:(lia) ltac:(lia)) as (g & G & EG). exists g. split; auto. }
  pose proof (round_le _ _ g R G ltac:(rewrite EG; apply Z.mul_le_mono_nonneg_r; lia)) as X1.
  pose proof (round_ge' _ _ (SFopp g) R (finite_opp g G) ltac:(rewrite units_opp, EG; nia)) as X2. rewrite units_opp in X2. lia.
Qed.
