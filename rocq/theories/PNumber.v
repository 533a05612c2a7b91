(** Proofs about decimal numbers and doubles. *)
From Verif Require Import Base MTokenizer SJson SUnicode MLit MFastVal PFloat SNumber.
From Coq Require Import List NArith ZArith QArith Qabs Qpower Qround Lia Lqa Bool.
From Coq Require Import Floats.SpecFloat.
Import ListNotations.
Open Scope Z_scope.

(** ** Doubles as multiples of the smallest one *)
Definition units (f : float) : Z :=
  match f with S754_finite s m e => (if s then Zneg m else Zpos m) * 2 ^ (e + 1074) | _ => 0 end.
Definition pow2 (n : Z) : Z := 2 ^ n.
Lemma pow2_pos : forall n, 0 <= n -> 0 < pow2 n.
Proof. intros. now apply Z.pow_pos_nonneg. Qed.
Lemma pow2_add : forall a b, 0 <= a -> 0 <= b -> pow2 (a + b) = pow2 a * pow2 b.
Proof. intros. now apply Z.pow_add_r. Qed.
Lemma pow2_le : forall a b, 0 <= a <= b -> pow2 a <= pow2 b.
Proof. intros. apply Z.pow_le_mono_r; lia. Qed.

Lemma bounded_spec : forall m e, bounded 53 1024 m e = true ->
  -1074 <= e <= 971 /\ 0 < Zpos m < 2 ^ 53 /\ (e = -1074 \/ 2 ^ 52 <= Zpos m).
Proof.
  intros m e H. unfold bounded, canonical_mantissa in H. apply andb_prop in H. destruct H as [H1 H2]. apply Zeq_bool_eq in H1. apply Zle_bool_imp_le in H2.
  unfold fexp, emin in H1. destruct (digits_bound m) as [A B]. set (d := Zpos (digits2_pos m)) in *.
  split; [lia|]. split.
  - split; [lia|]. apply (Z.lt_le_trans _ _ _ A). apply Z.pow_le_mono_r; lia.
  - destruct (Z.eq_dec d 53) as [E|E]; [right; now rewrite E in B|left; lia].
Qed.
Lemma bounded_ok : forall m e, -1074 <= e <= 971 -> Zpos (digits2_pos m) = 53 -> bounded 53 1024 m e = true.
Proof.
  intros m e H D. unfold bounded, canonical_mantissa. rewrite D. unfold fexp, emin. apply andb_true_intro. split; [|apply Z.leb_le; lia].
  apply Zeq_bool_true || (apply Zeq_is_eq_bool). lia.
Qed.
Lemma digits53 : forall m, 2 ^ 52 <= Zpos m < 2 ^ 53 -> Zpos (digits2_pos m) = 53.
Proof.
  intros m [A B]. destruct (digits_bound m) as [C D]. pose proof (small_digits m B).
  destruct (Z.eq_dec (Zpos (digits2_pos m)) 53) as [|N]; auto. exfalso.
  assert (2 ^ Zpos (digits2_pos m) <= 2 ^ 52) by (apply Z.pow_le_mono_r; lia). lia.
Qed.

Definition D1074 : positive := Z.to_pos (pow2 1074).
Lemma D1074_eq : Zpos D1074 = pow2 1074.
Proof. unfold D1074. rewrite Z2Pos.id; auto. now apply pow2_pos. Qed.
Lemma two_pow : forall e, -1074 <= e -> ((2 # 1) ^ e == pow2 (e + 1074) # D1074)%Q.
Proof.
  intros e He. Opaque D1074.
  assert ((2 # 1) ^ e * (2 # 1) ^ 1074 == (2 # 1) ^ (e + 1074))%Q as E by (rewrite Qpower_plus; [reflexivity|discriminate]).
  assert (forall n : Z, (0 <= n)%Z -> (2 # 1) ^ n == inject_Z (pow2 n))%Q as P.
  { intros n Hn. symmetry. exact (Zpower_Qpower 2 n Hn). }
  rewrite (P 1074), (P (e + 1074)) in E by lia.
  assert ((pow2 (e + 1074) # D1074) == inject_Z (pow2 (e + 1074)) / inject_Z (pow2 1074))%Q as R.
  { rewrite <- D1074_eq. rewrite Qmake_Qdiv. reflexivity. }
  rewrite R, <- E.
  rewrite Qdiv_mult_l; [reflexivity|]. pose proof (pow2_pos 1074 ltac:(lia)) as X. unfold Qeq. cbn [Qnum Qden inject_Z]. lia.
Qed.
Lemma val_units : forall f, finite f -> (valQ f == units f # D1074)%Q.
Proof.
  intros [s|s| |s m e] [V F]; try destruct F; cbn [valQ units]; [unfold Qeq; cbn [Qnum Qden]; lia|].
  apply bounded_spec in V. rewrite two_pow by lia. unfold Qmult, inject_Z. unfold Qeq. cbn [Qnum Qden]. rewrite Pos.mul_1_l. reflexivity.
Qed.
Lemma val_compare : forall f g, finite f -> finite g -> (valQ f ?= valQ g)%Q = (units f ?= units g).
Proof.
  intros f g F G. rewrite (val_units f F), (val_units g G). unfold Qcompare. cbn [Qnum Qden]. symmetry. apply Zmult_compare_compat_r. lia.
Qed.

(** ** Comparing *)
Lemma mags : forall m e m' e', bounded 53 1024 m e = true -> bounded 53 1024 m' e' = true ->
  (match e ?= e' with Eq => Pos.compare_cont Eq m m' | c => c end) = (Zpos m * pow2 (e + 1074) ?= Zpos m' * pow2 (e' + 1074)).
Proof.
  assert (forall m e m' e', bounded 53 1024 m e = true -> bounded 53 1024 m' e' = true -> e < e' -> Zpos m * pow2 (e + 1074) < Zpos m' * pow2 (e' + 1074)) as L.
  { intros m e m' e' B B' H. apply bounded_spec in B, B'. destruct B as (R & M & _), B' as (R' & M' & [X|X]); [lia|].
    replace (e' + 1074) with ((e + 1074) + 1 + (e' - e - 1)) by lia. rewrite (pow2_add (e + 1074 + 1)), (pow2_add (e + 1074) 1) by lia. change (pow2 1) with 2.
    pose proof (pow2_pos (e + 1074) ltac:(lia)) as P1. pose proof (pow2_pos (e' - e - 1) ltac:(lia)) as P2.
    set (a := pow2 (e + 1074)) in *. set (b := pow2 (e' - e - 1)) in *.
    apply (Z.lt_le_trans _ (2 ^ 53 * a)); [apply Z.mul_lt_mono_pos_r; lia|]. apply (Z.le_trans _ (Zpos m' * 2 * a)); [apply Z.mul_le_mono_nonneg_r; lia|].
    replace (Zpos m' * (a * 2 * b)) with (Zpos m' * 2 * a * b) by ring. assert (0 < Zpos m' * 2 * a) by (apply Z.mul_pos_pos; lia). nia. }
  intros m e m' e' B B'. destruct (Z.compare_spec e e') as [->|H|H].
  - rewrite <- Zmult_compare_compat_r; [reflexivity|]. apply bounded_spec in B. pose proof (pow2_pos (e' + 1074) ltac:(lia)). lia.
  - symmetry. apply Z.compare_lt_iff. auto.
  - symmetry. apply Z.compare_gt_iff. auto.
Qed.
Lemma sf_compare : forall f g, finite f -> finite g -> SFcompare f g = Some (units f ?= units g).
Proof.
  intros [s|s| |s m e] [s'|s'| |s' m' e'] [V F] [V' F']; try destruct F; try destruct F'; cbn [SFcompare units]; auto.
  - apply bounded_spec in V'. pose proof (pow2_pos (e' + 1074) ltac:(lia)) as P. unfold pow2 in P. destruct s'; f_equal; symmetry; [apply Z.compare_gt_iff|apply Z.compare_lt_iff]; nia.
  - apply bounded_spec in V. pose proof (pow2_pos (e + 1074) ltac:(lia)) as P. unfold pow2 in P. destruct s; f_equal; symmetry; [apply Z.compare_lt_iff|apply Z.compare_gt_iff]; nia.
  - pose proof (mags m e m' e' V V') as M. unfold pow2 in M.
    pose proof (proj1 (bounded_spec _ _ V)). pose proof (proj1 (bounded_spec _ _ V')).
    pose proof (pow2_pos (e + 1074) ltac:(lia)) as P. pose proof (pow2_pos (e' + 1074) ltac:(lia)) as P'. unfold pow2 in P, P'.
    destruct s, s'; f_equal.
    + rewrite <- !Pos2Z.opp_pos, !Z.mul_opp_l, <- Zcompare_opp in * by auto.
      rewrite (Z.compare_antisym (Zpos m * _)), <- M. destruct (e ?= e'); reflexivity.
    + symmetry. apply Z.compare_lt_iff. nia.
    + symmetry. apply Z.compare_gt_iff. nia.
    + rewrite <- M. destruct (e ?= e'); reflexivity.
Qed.
Lemma f_ltb : forall f g, finite f -> finite g -> fltb f g = (units f <? units g).
Proof. intros f g F G. unfold fltb, SFltb, Z.ltb. now rewrite sf_compare. Qed.

(** ** Rounding a difference does not take it below the tolerance *)
Lemma iter_ind : forall {A} (f : A -> A) (P : Z -> A -> Prop) x, P 0 x -> (forall n y, 0 <= n -> P n y -> P (n + 1) (f y)) ->
  forall p, P (Zpos p) (iter_pos f p x).
Proof.
  intros A f P x H0 HS.
  assert (forall p n y, 0 <= n -> P n y -> P (n + Zpos p) (iter_pos f p y)) as G.
  { induction p as [p IH|p IH|]; intros n y Hn Hy; cbn [iter_pos].
    - replace (n + Zpos p~1) with (n + 1 + Zpos p + Zpos p) by lia. apply IH; [lia|]. apply IH; [lia|]. auto.
    - replace (n + Zpos p~0) with (n + Zpos p + Zpos p) by lia. apply IH; [lia|]. auto.
    - auto. }
  intro p. exact (G p 0 x ltac:(lia) H0).
Qed.
Lemma shr1_m : forall r, 0 <= shr_m r -> shr_m (shr_1 r) = shr_m r / 2.
Proof.
  intros [m r s] H. cbn [shr_m] in H. destruct m as [|[p|p|]|p]; cbn [shr_1 shr_m]; auto; try lia.
Qed.
Lemma shr_div : forall m n, 0 <= m -> shr_m (iter_pos shr_1 n (Build_shr_record m false false)) = m / 2 ^ Zpos n.
Proof.
  intros m n Hm. apply (iter_ind shr_1 (fun n r => shr_m r = m / 2 ^ n)).
  - cbn [shr_m]. now rewrite Z.div_1_r.
  - intros k y Hk E. assert (0 <= shr_m y) by (rewrite E; apply Z.div_pos; auto; apply Z.pow_pos_nonneg; lia).
    rewrite shr1_m, E, Z.div_div, Z.pow_add_r by (auto; lia || (pose proof (Z.pow_pos_nonneg 2 k); lia)). reflexivity.
Qed.
Lemma rne : forall m l, round_nearest_even m l = m \/ round_nearest_even m l = m + 1.
Proof. intros m [|[| |]]; cbn; auto. destruct (Z.even m); auto. Qed.

Definition mB : Z := 7555786372591432.
(** At least the tolerance, as SFltb sees it. *)
Definition notBelow (f : float) : Prop := fltb (SFabs f) EPSILON = false.
Lemma fin_ltb : forall m e q k, e > k \/ e = k /\ Zpos q <= Zpos m -> SFltb (S754_finite false m e) (S754_finite false q k) = false.
Proof.
  intros m e q k H. unfold SFltb. cbn [SFcompare]. destruct (Z.compare_spec e k) as [->|X|X]; auto; [|lia].
  destruct H as [H|[_ H]]; [lia|]. fold (m ?= q)%positive. destruct (Pos.compare_spec m q) as [X|X|X]; auto. lia.
Qed.
Lemma not_below : forall s m e, e > -76 \/ e = -76 /\ mB <= Zpos m -> notBelow (S754_finite s m e).
Proof. intros s m e H. unfold notBelow, fltb, EPSILON. cbn [SFabs]. now apply fin_ltb. Qed.
Lemma aux_exact53 : forall s m e, 2 ^ 52 <= Zpos m < 2 ^ 53 -> -1074 <= e -> e > -76 \/ e = -76 /\ mB <= Zpos m ->
  notBelow (binary_round_aux 53 1024 s (Zpos m) e loc_Exact).
Proof.
  intros s m e D R H. apply digits53 in D. unfold binary_round_aux, shr_fexp.
  assert (F : fexp 53 1024 (Zdigits2 (Zpos m) + e) - e = 0) by (unfold fexp, emin, Zdigits2; rewrite D; lia).
  rewrite F. unfold shr, shr_record_of_loc, loc_of_shr_record, round_nearest_even, shr_m. rewrite F.
  destruct (Zle_bool e (1024 - 53)); [now apply not_below|reflexivity].
Qed.
Lemma aux_ge : forall s m e, 2 ^ 53 <= Zpos m -> -1074 <= e -> mB * pow2 (-76 + 1074) <= Zpos m * pow2 (e + 1074) ->
  notBelow (binary_round_aux 53 1024 s (Zpos m) e loc_Exact).
Proof.
  intros s m e M R H. destruct (digits_bound m) as [A B]. set (d := Zpos (digits2_pos m)) in *.
  assert (54 <= d) as Hd.
  { destruct (Z_le_gt_dec 54 d); auto. assert (2 ^ d <= 2 ^ 53) by (apply Z.pow_le_mono_r; lia). lia. }
  set (n := d - 53). assert (0 < n) as Hn by lia.
  set (q := Zpos m / 2 ^ n).
  pose proof (Z.pow_pos_nonneg 2 n ltac:(lia) ltac:(lia)) as Pn.
  assert (2 ^ 52 <= q < 2 ^ 53) as Q.
  { subst q. split; [apply Z.div_le_lower_bound; [lia|]|apply Z.div_lt_upper_bound; [lia|]]; rewrite <- Z.pow_add_r by lia.
    - replace (n + 52) with (d - 1) by lia. exact B.
    - replace (n + 53) with d by lia. exact A. }
  assert (e + n > -76 \/ e + n = -76 /\ mB <= q) as K.
  { destruct (Z_lt_le_dec (-76) (e + n)) as [|X]; [left; lia|].
    assert (pow2 (e + n + 1074) = pow2 (e + 1074) * 2 ^ n) as E1 by (rewrite <- Z.add_assoc, (Z.add_comm n), Z.add_assoc, pow2_add by lia; reflexivity).
    pose proof (pow2_pos (e + 1074) ltac:(lia)) as P1.
    destruct (Z.eq_dec (e + n) (-76)) as [Y|Y].
    - right. split; auto. rewrite Y in E1. rewrite E1 in H. subst q. apply Z.div_le_lower_bound; [lia|].
      apply (Z.mul_le_mono_pos_r _ _ (pow2 (e + 1074))); [lia|]. lia.
    - exfalso. assert (Zpos m < 2 ^ 53 * 2 ^ n) as U by (rewrite <- Z.pow_add_r by lia; replace (53 + n) with d by lia; exact A).
      assert (Zpos m * pow2 (e + 1074) < 2 ^ 53 * pow2 (e + n + 1074)) as V.
      { rewrite E1. replace (2 ^ 53 * (pow2 (e + 1074) * 2 ^ n)) with (2 ^ 53 * 2 ^ n * pow2 (e + 1074)) by ring. apply Z.mul_lt_mono_pos_r; auto. }
      assert (pow2 (e + n + 1074) <= pow2 (-77 + 1074)) as W by (apply pow2_le; lia).
      replace (pow2 (-76 + 1074)) with (2 * pow2 (-77 + 1074)) in H by (change 2 with (pow2 1) at 1; rewrite <- pow2_add by lia; reflexivity).
      unfold mB in H. change (2 ^ 53) with 9007199254740992 in V. lia. }
  unfold binary_round_aux, shr_fexp at 1.
  replace (fexp 53 1024 (Zdigits2 (Zpos m) + e) - e) with n by (unfold fexp, emin, Zdigits2; fold d; lia).
  change (shr_record_of_loc (Zpos m) loc_Exact) with (Build_shr_record (Zpos m) false false).
  destruct n as [|k|k] eqn:En; try lia. cbn [shr]. rewrite shr_div by lia. fold q.
  set (r := iter_pos shr_1 k _). clearbody r.
  assert (forall e1 z, 2 ^ 52 <= z < 2 ^ 53 -> e1 > -76 \/ e1 = -76 /\ mB <= z -> notBelow (let '(mrs'', e'') := shr_fexp 53 1024 z e1 loc_Exact in
     match shr_m mrs'' with Z0 => S754_zero s | Zpos m => if Zle_bool e'' (1024 - 53) then S754_finite s m e'' else S754_infinity s | _ => S754_nan end)) as G.
  { intros e1 z Hz HK. destruct z as [|z|z]; try lia. pose proof (digits53 z Hz) as D. unfold shr_fexp.
    replace (fexp 53 1024 (Zdigits2 (Zpos z) + e1) - e1) with 0 by (unfold fexp, emin, Zdigits2; rewrite D; lia). cbn [shr shr_record_of_loc shr_m].
    destruct (Zle_bool e1 (1024 - 53)); [now apply not_below|reflexivity]. }
  destruct (rne q (loc_of_shr_record r)) as [-> | ->].
  - apply G; auto.
  - destruct (Z.eq_dec (q + 1) (2 ^ 53)) as [E|E].
    + rewrite E. unfold shr_fexp. replace (fexp 53 1024 (Zdigits2 (2 ^ 53) + (e + Zpos k)) - (e + Zpos k)) with 1.
      * cbn. destruct (Zle_bool _ _); [|reflexivity]. apply not_below. left. lia.
      * change (Zdigits2 (2 ^ 53)) with 54. unfold fexp, emin. lia.
    + apply G; [lia|]. destruct K as [K|[K K']]; [now left|right; split; auto; lia].
Qed.
Lemma round_ge : forall s p e, -1074 <= e -> mB * pow2 (-76 + 1074) <= Zpos p * pow2 (e + 1074) -> notBelow (binary_round 53 1024 s p e).
Proof.
  intros s p e R H. unfold binary_round. destruct (digits_bound p) as [A B]. set (d := Zpos (digits2_pos p)) in *.
  pose proof (pow2_pos (e + 1074) ltac:(lia)) as P1.
  (* the magnitude *)
  assert (-76 <= d + e - 53) as Hd.
  { destruct (Z_le_gt_dec (-76) (d + e - 53)) as [|X]; auto. exfalso.
    assert (Zpos p * pow2 (e + 1074) < pow2 (d + e + 1074)) as U.
    { replace (d + e + 1074) with (d + (e + 1074)) by lia. rewrite (pow2_add d (e + 1074)) by lia. apply Z.mul_lt_mono_pos_r; auto. }
    assert (pow2 (d + e + 1074) <= pow2 (-24 + 1074)) as V by (apply pow2_le; subst d; lia).
    assert (pow2 (-24 + 1074) = 2 ^ 52 * pow2 (-76 + 1074)) as W by (change (2 ^ 52) with (pow2 52); rewrite <- pow2_add by lia; reflexivity).
    pose proof (pow2_pos (-76 + 1074) ltac:(lia)). unfold mB in H. change (2 ^ 52) with 4503599627370496 in W. lia. }
  assert (fexp 53 1024 (d + e) = d + e - 53) as F by (unfold fexp, emin; lia). rewrite F. unfold shl_align.
  replace (d + e - 53 - e) with (d - 53) by lia. destruct (d - 53) as [|k|k] eqn:Ek.
  - assert (2 ^ 52 <= Zpos p < 2 ^ 53) as D by (replace d with 53 in * by lia; split; auto).
    apply aux_exact53; auto. replace d with 53 in Hd by lia.
    destruct (Z.eq_dec e (-76)) as [->|X]; [right; split; auto|left; lia].
    apply (Z.mul_le_mono_pos_r _ _ (pow2 (-76 + 1074))); auto.
  - apply aux_ge; auto. apply (Z.le_trans _ (2 ^ (d - 1))); auto. apply Z.pow_le_mono_r; lia.
  - assert (2 ^ 52 <= Zpos (shift_pos k p) < 2 ^ 53) as D.
    { rewrite shift_value. split.
      - replace 52 with ((d - 1) + Zpos k) by lia. rewrite Z.pow_add_r by lia. apply Z.mul_le_mono_nonneg_r; [apply Z.pow_nonneg; lia|auto].
      - replace 53 with (d + Zpos k) by lia. rewrite Z.pow_add_r by lia. apply Z.mul_lt_mono_pos_r; [apply Z.pow_pos_nonneg; lia|auto]. }
    apply aux_exact53; auto; [lia|].
    destruct (Z.eq_dec (d + e - 53) (-76)) as [X|X]; [right; split; auto|left; lia].
    rewrite shift_value. apply (Z.mul_le_mono_pos_r _ _ (pow2 (-76 + 1074))); [apply pow2_pos; lia|].
    replace (e + 1074) with (Zpos k + (-76 + 1074)) in H by lia. rewrite (pow2_add (Zpos k)) in H by lia. change (pow2 (Zpos k)) with (2 ^ Zpos k) in H. lia.
Qed.

Lemma align_value : forall m e z, z <= e -> Zpos (fst (shl_align m e z)) = Zpos m * 2 ^ (e - z).
Proof.
  intros m e z H. unfold shl_align. destruct (z - e) as [|k|k] eqn:E; try lia; cbn [fst].
  - replace (e - z) with 0 by lia. rewrite Z.pow_0_r. lia.
  - rewrite shift_value. f_equal. f_equal. lia.
Qed.
Lemma units_eps : units EPSILON = mB * pow2 (-76 + 1074).
Proof. reflexivity. Qed.
Theorem far_apart : forall f g, finite f -> finite g -> units EPSILON <= Z.abs (units f - units g) -> notBelow (fsub f g).
Proof.
  intros [s|s| |s m e] [s'|s'| |s' m' e'] [V F] [V' F'] H; try destruct F; try destruct F'; rewrite units_eps in H; cbn [units] in H.
  - exfalso. pose proof (pow2_pos (-76 + 1074) ltac:(lia)). unfold mB in H. lia.
  - unfold notBelow, fsub. cbn [SFsub SFabs]. rewrite f_ltb by (split; auto; reflexivity). apply Z.ltb_ge. rewrite units_eps.
    cbn [units]. apply (Z.le_trans _ _ _ H). destruct s'; rewrite ?Z.sub_0_l; rewrite Z.abs_opp, Z.abs_mul; cbn [Z.abs]; rewrite Z.abs_eq; try lia; apply Z.pow_nonneg; lia.
  - unfold notBelow, fsub. cbn [SFsub SFabs]. rewrite f_ltb by (split; auto; reflexivity). apply Z.ltb_ge. rewrite units_eps.
    cbn [units]. apply (Z.le_trans _ _ _ H). rewrite Z.sub_0_r. destruct s; rewrite Z.abs_mul; cbn [Z.abs]; rewrite Z.abs_eq; try lia; apply Z.pow_nonneg; lia.
  - pose proof (proj1 (bounded_spec _ _ V)). pose proof (proj1 (bounded_spec _ _ V')).
    unfold fsub. cbn [SFsub]. set (z := Z.min e e'). rewrite !align_value by lia.
    set (d := _ - _ : Z). assert ((if s then Zneg m else Zpos m) * 2 ^ (e + 1074) - (if s' then Zneg m' else Zpos m') * 2 ^ (e' + 1074) = d * pow2 (z + 1074)) as E.
    { subst d. unfold pow2. replace (e + 1074) with ((e - z) + (z + 1074)) by lia. replace (e' + 1074) with ((e' - z) + (z + 1074)) by lia.
      rewrite (Z.pow_add_r 2 (e - z)), (Z.pow_add_r 2 (e' - z)) by lia. destruct s, s'; cbn [cond_Zopp]; rewrite <- ?Pos2Z.opp_pos; ring. }
    rewrite E in H. clearbody d. pose proof (pow2_pos (z + 1074) ltac:(lia)) as P. rewrite Z.abs_mul, (Z.abs_eq (pow2 (z + 1074))) in H by lia.
    destruct d as [|p|p]; cbn [binary_normalize Z.abs] in *.
    + exfalso. pose proof (pow2_pos (-76 + 1074) ltac:(lia)). unfold mB in H. lia.
    + apply round_ge; auto. lia.
    + apply round_ge; auto. lia.
Qed.

(** ** Integers and multiples of [2^-23] are doubles *)
Lemma scaled : forall p k, Zpos p < 2 ^ 53 -> -23 <= k <= 0 -> exists m e,
  Z2f (Zpos p) = S754_finite false m e /\ Z2f (Zneg p) = S754_finite true m e
  /\ bounded 53 1024 m (e + k) = true /\ (inject_Z (Zpos m) * (2 # 1) ^ (e + k) == inject_Z (Zpos p) * (2 # 1) ^ k)%Q.
Proof.
  intros p k H Hk. destruct (Z2f_small p H) as (m & e & E & E' & _ & He & Em). exists m, e. split; auto. split; auto.
  assert (2 ^ 52 <= Zpos m < 2 ^ 53 /\ -53 < e) as [B R].
  { clear -E H Em He. pose proof (small_digits p H) as D. unfold Z2f, binary_normalize, binary_round in E.
    assert (F : fexp 53 1024 (Zpos (digits2_pos p) + 0) = Zpos (digits2_pos p) - 53) by (unfold fexp, emin; lia).
    rewrite F in E. unfold shl_align in E. rewrite Z.sub_0_r in E.
    assert (forall m, Zpos (digits2_pos m) = 53 -> 2 ^ 52 <= Zpos m < 2 ^ 53) as B.
    { intros n X. destruct (digits_bound n) as [A C]. rewrite X in *. lia. }
    destruct (Zpos (digits2_pos p) - 53) as [|q|q] eqn:K; [| lia |].
    - rewrite round_aux_exact in E by lia. injection E as <- <-. split; [apply B|]; lia.
    - rewrite round_aux_exact in E by (rewrite ?digits_shift; lia). injection E as <- <-. split; [apply B; rewrite digits_shift|]; lia. }
  split; [apply bounded_ok; [lia|now apply digits53]|].
  rewrite Qpower_plus by discriminate. rewrite Em, inject_Z_mult. rewrite (Zpower_Qpower 2 (- e)) by lia. change (inject_Z 2) with (2 # 1).
  rewrite Qpower_opp. assert (~ (2 # 1) ^ e == 0)%Q as NZ by (apply Qpower_not_0; discriminate). field. exact NZ.
Qed.
Lemma Z2f_exact : forall z, - 2 ^ 53 < z < 2 ^ 53 -> finite (Z2f z) /\ (valQ (Z2f z) == inject_Z z)%Q.
Proof.
  intros [|p|p] H; [split; [split; reflexivity|reflexivity]| |]; destruct (scaled p 0 ltac:(lia) ltac:(lia)) as (m & e & E & E' & B & V); rewrite Z.add_0_r in *.
  - rewrite E. split; [split; auto|]. cbn [valQ]. rewrite V. cbn [Qpower]. ring.
  - rewrite E'. split; [split; auto|]. cbn [valQ]. rewrite <- !Pos2Z.opp_pos, !inject_Z_opp.
    setoid_replace (- inject_Z (Zpos m) * (2 # 1) ^ e)%Q with (- (inject_Z (Zpos m) * (2 # 1) ^ e))%Q by ring. rewrite V. cbn [Qpower]. ring.
Qed.
Lemma qneg : forall a b : Q, (- a * b == - (a * b))%Q.
Proof. intros. ring. Qed.
Lemma grid : forall z, - 2 ^ 53 < z < 2 ^ 53 -> exists g, finite g /\ (valQ g == inject_Z z * (2 # 1) ^ (-23))%Q.
Proof.
  intros [|p|p] H; [exists (S754_zero false); split; [split; reflexivity|reflexivity]| |]; destruct (scaled p (-23) ltac:(lia) ltac:(lia)) as (m & e & E & E' & B & V).
  - exists (S754_finite false m (e + -23)). split; [split; auto|]. exact V.
  - exists (S754_finite true m (e + -23)). split; [split; auto|]. cbn [valQ]. rewrite <- !Pos2Z.opp_pos, !inject_Z_opp.
    rewrite !qneg, V. reflexivity.
Qed.

(** ** Nearest doubles *)
Open Scope Q_scope.
Definition billion : Q := inject_Z (10 ^ 9).
Lemma nearest_error : forall f v, nearest f v -> Qabs v <= billion -> Qabs (valQ f - v) <= 1 # 16777216.
Proof.
  intros f v [_ N] H.
  set (k := Qfloor (v * (8388608 # 1) + (1 # 2))).
  pose proof (Qfloor_le (v * (8388608 # 1) + (1 # 2))) as L. pose proof (Qlt_floor (v * (8388608 # 1) + (1 # 2))) as U. fold k in L, U.
  apply Qabs_Qle_condition in H. unfold billion in H. destruct H as [H1 H2]. change (inject_Z (10 ^ 9)) with (1000000000 # 1) in *.
  rewrite inject_Z_plus in U. change (inject_Z 1) with 1 in U.
  destruct (grid k) as (g & G & E).
  - assert (inject_Z k < inject_Z (2 ^ 53) /\ inject_Z (- 2 ^ 53) < inject_Z k) as [A B].
    { change (inject_Z (2 ^ 53)) with (9007199254740992 # 1). change (inject_Z (- 2 ^ 53)) with (-9007199254740992 # 1). split; lra. }
    rewrite <- Zlt_Qlt in A, B. split; auto.
  - apply (Qle_trans _ _ _ (N g G)). apply Qabs_Qle_condition. rewrite E. change ((2 # 1) ^ (-23)) with (1 # 8388608). split; lra.
Qed.
Lemma nearest_mono : forall f g v w, nearest f v -> nearest g w -> v < w -> valQ f <= valQ g.
Proof.
  intros f g v w [F Nf] [G Ng] H. destruct (Qlt_le_dec (valQ g) (valQ f)) as [L|]; auto. exfalso.
  pose proof (Nf g G) as A. pose proof (Ng f F) as B. clear Nf Ng F G.
  set (x := valQ f) in *. set (y := valQ g) in *. clearbody x y.
  revert A B. apply (Qabs_case (x - v)); intros C1; apply (Qabs_case (y - v)); intros C2; apply (Qabs_case (y - w)); intros C3; apply (Qabs_case (x - w)); intros C4; intros; lra.
Qed.
Lemma nearest_self : forall f, finite f -> nearest f (valQ f).
Proof.
  intros f F. split; auto. intros g G. setoid_replace (valQ f - valQ f) with 0 by ring. apply Qabs_nonneg.
Qed.
Lemma nearest_exact : forall f v g, nearest f v -> finite g -> valQ g == v -> valQ f == v.
Proof.
  intros f v g [F N] G E. pose proof (N g G) as H. rewrite E in H. setoid_replace (v - v) with 0 in H by ring. change (Qabs 0) with 0 in H.
  revert H. apply (Qabs_case (valQ f - v)); intros; lra.
Qed.
Lemma nearest_eqv : forall f v w, v == w -> nearest f v -> nearest f w.
Proof. intros f v w E [F N]. split; auto. intros g G. rewrite <- E. auto. Qed.

(** ** The comparison of doubles *)
Definition epsQ : Q := valQ EPSILON.
Lemma epsQ_val : epsQ == 7555786372591432 # 75557863725914323419136.
Proof. reflexivity. Qed.
Lemma eps_finite : finite EPSILON.
Proof. split; reflexivity. Qed.
Lemma q_units : forall f g, finite f -> finite g -> (valQ f < valQ g <-> (units f < units g)%Z) /\ (valQ f == valQ g <-> units f = units g).
Proof.
  intros f g F G. pose proof (val_compare f g F G) as C. split; split; intro H.
  - assert ((valQ f ?= valQ g) = Lt) as K by now apply Qlt_alt. rewrite K in C. symmetry in C. now apply Z.compare_lt_iff in C.
  - apply Z.compare_lt_iff in H. rewrite H in C. now apply Qlt_alt.
  - assert ((valQ f ?= valQ g) = Eq) as K by now apply Qeq_alt. rewrite K in C. symmetry in C. now apply Z.compare_eq_iff in C.
  - rewrite H, Z.compare_refl in C. now apply Qeq_alt.
Qed.
Definition sgnQ (v w : Q) : Z := match (v ?= w)%Q with Lt => -1 | Eq => 0 | Gt => 1 end.
Lemma finite_nan : forall f, finite f -> isNaN f = false.
Proof. intros [| | |] [_ F]; auto; destruct F. Qed.
(** The sign found is that of the difference, or none. *)
Lemma floats_sign : forall o v w f g, asFloat o v = (f, true) -> asFloat o w = (g, true) -> finite f -> finite g ->
  exists r, compareFloat o v w = (r, true) /\ (r = sgnQ (valQ f) (valQ g) \/ r = 0%Z)
    /\ (epsQ <= Qabs (valQ f - valQ g) -> r = sgnQ (valQ f) (valQ g)).
Proof.
  intros o v w f g Ev Ew F G. unfold compareFloat. rewrite Ev, Ew, (finite_nan f F), (finite_nan g G). cbn [orb andb].
  rewrite (f_ltb f g F G), (f_ltb g f G F). unfold sgnQ. rewrite (val_compare f g F G).
  assert ((if (units f <? units g)%Z then ((-1)%Z, true) else if (units g <? units f)%Z then (1%Z, true) else (0%Z, true))
    = (match (units f ?= units g)%Z with Lt => (-1)%Z | Eq => 0%Z | Gt => 1%Z end, true)) as E.
  { destruct (Z.compare_spec (units f) (units g)) as [->|H|H].
    - rewrite Z.ltb_irrefl. reflexivity.
    - apply Z.ltb_lt in H. now rewrite H.
    - rewrite (proj2 (Z.ltb_ge (units f) (units g))) by lia. apply Z.ltb_lt in H. now rewrite H. }
  destruct (fltb (SFabs (fsub f g)) EPSILON) eqn:EL.
  - exists 0%Z. split; auto. split; auto. intro H. exfalso. enough (notBelow (fsub f g)) as X by (unfold notBelow in X; congruence).
    apply far_apart; auto.
    assert (forall a b, finite a -> finite b -> valQ EPSILON <= valQ a - valQ b -> (units EPSILON <= units a - units b)%Z) as K.
    { intros a b A B X. rewrite (val_units _ eps_finite), (val_units a A), (val_units b B) in X.
      assert ((units EPSILON # D1074) <= (units a - units b) # D1074) as Y.
      { apply (Qle_trans _ _ _ X). unfold Qle, Qminus, Qplus, Qopp. cbn [Qnum Qden]. rewrite Pos2Z.inj_mul. apply Z.eq_le_incl. ring. }
      unfold Qle in Y. cbn [Qnum Qden] in Y. apply (Z.mul_le_mono_pos_r _ _ (Zpos D1074)) in Y; auto. lia. }
    revert H. apply (Qabs_case (valQ f - valQ g)); intros X Y.
    + pose proof (K f g F G Y). lia.
    + assert (valQ EPSILON <= valQ g - valQ f) as Y' by (unfold epsQ in Y; lra). pose proof (K g f G F Y'). lia.
  - rewrite E. eexists. split; [reflexivity|]. split; auto.
Qed.
