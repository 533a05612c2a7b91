(** Small integers are exact in binary64. *)
From Verif Require Import Base MTokenizer MLit MFastVal MMath.
From Coq Require Import List NArith ZArith Zpower Lia Bool.
From Coq Require Import Floats.SpecFloat.
Open Scope Z_scope.

Lemma digits_shift : forall n p, Zpos (digits2_pos (shift_pos n p)) = Zpos (digits2_pos p) + Zpos n.
Proof.
  intros n p. unfold shift_pos. revert p. induction n using Pos.peano_ind; intro p.
  - cbn. lia.
  - rewrite Pos.iter_succ. cbn [digits2_pos]. rewrite Pos2Z.inj_succ, IHn. lia.
Qed.

Lemma shift_value : forall n p, Zpos (shift_pos n p) = Zpos p * 2 ^ Zpos n.
Proof. intros. rewrite shift_pos_correct, Z.pow_pos_fold. ring. Qed.

Lemma digits_bound : forall p, Zpos p < 2 ^ Zpos (digits2_pos p) /\ 2 ^ (Zpos (digits2_pos p) - 1) <= Zpos p.
Proof.
  induction p as [p IH|p IH|]; cbn [digits2_pos]; rewrite ?Pos2Z.inj_succ.
  - set (d := Zpos (digits2_pos p)) in *. assert (0 < d) by (subst d; lia).
    rewrite Z.pow_succ_r by lia. replace (Z.succ d - 1) with (Z.succ (d - 1)) by lia.
    rewrite Z.pow_succ_r by lia. lia.
  - set (d := Zpos (digits2_pos p)) in *. assert (0 < d) by (subst d; lia).
    rewrite Z.pow_succ_r by lia. replace (Z.succ d - 1) with (Z.succ (d - 1)) by lia.
    rewrite Z.pow_succ_r by lia. lia.
  - cbn. lia.
Qed.

Lemma small_digits : forall p, Zpos p < 2 ^ 53 -> Zpos (digits2_pos p) <= 53.
Proof.
  intros p H. destruct (digits_bound p) as [_ L].
  destruct (Z_le_gt_dec (Zpos (digits2_pos p)) 53) as [|G]; [assumption|exfalso].
  assert (2 ^ 53 <= 2 ^ (Zpos (digits2_pos p) - 1)) by (apply Z.pow_le_mono_r; lia). lia.
Qed.

(** A 53-digit mantissa within the exponent range is not rounded. *)
Lemma round_aux_exact : forall s m e, Zpos (digits2_pos m) = 53 -> -1074 <= e <= 971 ->
  binary_round_aux 53 1024 s (Zpos m) e loc_Exact = S754_finite s m e.
Proof.
  intros s m e D R. unfold binary_round_aux, shr_fexp.
  assert (F : fexp 53 1024 (Zdigits2 (Zpos m) + e) - e = 0).
  { unfold fexp, emin, Zdigits2. rewrite D. lia. }
  rewrite F. unfold shr, shr_record_of_loc, loc_of_shr_record, round_nearest_even, shr_m. cbn [loc_of_shr_record].
  rewrite F.
  replace (e <=? 1024 - 53) with true by (symmetry; apply Z.leb_le; lia). reflexivity.
Qed.

Lemma Z2f_small : forall p, Zpos p < 2 ^ 53 ->
  exists m e, Z2f (Zpos p) = S754_finite false m e /\ Z2f (Zneg p) = S754_finite true m e /\
              truncF (S754_finite false m e) = Some (Zpos p) /\ e <= 0 /\ Zpos m = Zpos p * 2 ^ (- e).
Proof.
  intros p H. pose proof (small_digits p H) as D.
  unfold Z2f, binary_normalize, binary_round.
  assert (F : fexp 53 1024 (Zpos (digits2_pos p) + 0) = Zpos (digits2_pos p) - 53).
  { unfold fexp, emin. lia. }
  rewrite F. unfold shl_align. rewrite Z.sub_0_r.
  destruct (Zpos (digits2_pos p) - 53) as [|k|k] eqn:K.
  - exists p, 0. rewrite !round_aux_exact by lia. repeat split.
    + cbn. f_equal. lia.
    + cbn. lia.
    + cbn. lia.
  - lia.
  - exists (shift_pos k p), (Zneg k). rewrite !round_aux_exact by (rewrite ?digits_shift; lia).
    repeat split.
    + unfold truncF. replace (0 <=? Zneg k) with false by reflexivity. f_equal.
      rewrite shift_value. change (- Zneg k) with (Zpos k). apply Z.div_mul. apply Z.pow_nonzero; lia.
    + lia.
    + rewrite shift_value. reflexivity.
Qed.

Lemma abs_small : forall o z u, - 2 ^ 53 < z < 2 ^ 53 -> mathAbs o (FV (VInt z) u) = Ok (plain (VInt (Z.abs z))).
Proof.
  intros o z u H. unfold mathAbs. cbn. unfold f2i, minInt64, maxInt64.
  destruct z as [|p|p].
  - reflexivity.
  - destruct (Z2f_small p ltac:(lia)) as (m & e & E & _ & T & _). rewrite E. cbn [SFabs]. rewrite T.
    replace ((- 2 ^ 63 <=? Zpos p) && (Zpos p <=? 2 ^ 63 - 1)) with true; [reflexivity|].
    symmetry. apply andb_true_iff. split; apply Z.leb_le; lia.
  - destruct (Z2f_small p ltac:(lia)) as (m & e & _ & E & T & _). rewrite E. cbn [SFabs]. rewrite T.
    replace ((- 2 ^ 63 <=? Zpos p) && (Zpos p <=? 2 ^ 63 - 1)) with true; [reflexivity|].
    symmetry. apply andb_true_iff. split; apply Z.leb_le; lia.
Qed.
