(** Comparison and arithmetic of values: final statements (C32-C37, C49-C51). *)
From Coq Require Import String.
From Verif Require Import Base MTokenizer MLit MFastVal MMath SNum PFastVal PQuote PMath PFloat.
From Coq Require Import List NArith ZArith Lia Bool.
From Coq Require Import Floats.SpecFloat.
Import ListNotations.
Open Scope Z_scope.

(** ** C32: antisymmetry *)

(** Swapping the operands negates the sign and keeps the validity, for all pairs
    of values of all types that are not both filter constants - except a
    filter constant of unsigned type against a signed integer that is not
    positive. *)
Theorem C32_antisymmetric : forall o v w,
  ~ (userDefined v = true /\ userDefined w = true) ->
  (userDefined v = true -> isUInt (fv v) = true -> isInt (fv w) = true -> snd (asUint o (fv w)) = true) ->
  (userDefined w = true -> isUInt (fv w) = true -> isInt (fv v) = true -> snd (asUint o (fv v)) = true) ->
  let '(r, ok) := compare o v w in compare o w v = (- r, ok).
Proof.
  intros o v w Hu H1 H2.
  rewrite (compare_flip o v w Hu).
  - destruct (compare o v w) as [r ok]. reflexivity.
  - intros U (A & B & C). rewrite (H1 U A B) in C. discriminate.
  - intros U (A & B & C). rewrite (H2 U A B) in C. discriminate.
Qed.

(** Values coming from documents are never affected. *)
Theorem C32_documents : forall o v w,
  userDefined v = false -> userDefined w = false ->
  let '(r, ok) := compare o v w in compare o w v = (- r, ok).
Proof. intros o v w Hv Hw. apply C32_antisymmetric; congruence || (rewrite Hv; intros [? _]; discriminate). Qed.

Example C32_example : forall o,
  compare o (plain (VBinString (s2b "7"))) (plain (VInt 5)) = (1, true) /\
  compare o (plain (VInt 5)) (plain (VBinString (s2b "7"))) = (-1, true) /\
  compare o (FV (VInt 7) true) (plain (VInt 9)) = (-1, true) /\
  compare o (plain (VInt 9)) (FV (VInt 7) true) = (1, true) /\
  compare o (plain VTrue) (plain (VInt 0)) = (1, true) /\
  compare o (plain (VInt 0)) (plain VTrue) = (-1, true).
Proof. intro o. repeat split; reflexivity. Qed.

(** The excluded case is a real asymmetry: the constant uint(0) is above -5, but
    -5 is "incomparably equal" to it. *)
Theorem C32_unsigned_constant_refuted : exists v w, forall o,
  userDefined v = true /\ userDefined w = false /\
  compare o v w = (1, true) /\ compare o w v = (0, false).
Proof. exists (FV (VUint 0) true), (plain (VInt (-5))). intro o. repeat split; reflexivity. Qed.

(** ** C33: integers compare by value *)

Definition sgn (a b : Z) : Z := match a ?= b with Lt => -1 | Eq => 0 | Gt => 1 end.

Lemma cmpZ_sgn : forall a b, cmpZ a b = sgn a b.
Proof.
  intros. unfold cmpZ, sgn, Z.ltb. rewrite (Z.compare_antisym a b).
  destruct (a ?= b); reflexivity.
Qed.

(** Two signed integers, whatever their origin. *)
Theorem C33_signed : forall o a b u u',
  compare o (FV (VInt a) u) (FV (VInt b) u') = (sgn a b, true).
Proof.
  intros. unfold compare, compareUserDefined, reverseCompare. cbn.
  destruct u, u'; cbn; rewrite <- cmpZ_sgn; try reflexivity.
  rewrite (cmpZ_swap a b), Z.opp_involutive. reflexivity.
Qed.

(** Two unsigned integers. *)
Theorem C33_unsigned : forall o a b u u',
  compare o (FV (VUint a) u) (FV (VUint b) u') = (sgn a b, true).
Proof.
  intros. unfold compare, compareUserDefined, reverseCompare. cbn.
  destruct u, u'; cbn; rewrite <- cmpZ_sgn; try reflexivity.
  rewrite (cmpZ_swap a b), Z.opp_involutive. reflexivity.
Qed.

Lemma mixed_core : forall o z n, - 2 ^ 63 <= z < 2 ^ 63 -> 0 <= n < 2 ^ 64 ->
  (compare o (plain (VUint n)) (plain (VInt z)) = (sgn n z, true) <-> (n < 2 ^ 63 /\ z <> 0)).
Proof.
  intros o z n Hz Hn. unfold compare. cbn [plain userDefined fv orb].
  change (isSameDataTypeAs (VUint n) (VInt z)) with false. cbn iota.
  change (vrank (dataType (VUint n)) <? vrank (dataType (VInt z))) with true. cbn iota.
  assert (C1 : checkCompatibility o (VUint n) (VInt z) = (0 <? z)).
  { unfold checkCompatibility. cbn. destruct (0 <? z); reflexivity. }
  change (checkCompatibility o (VInt z) (VUint n)) with true. rewrite C1.
  rewrite <- cmpZ_sgn. unfold reverseCompare, compareInternal. cbn [plain fv].
  unfold compareNumerics. cbn [fst asInt].
  destruct (Z.ltb_spec 0 z) as [Pz|Pz]; cbn [negb].
  - destruct (Z_lt_le_dec n (2 ^ 63)) as [Ln|Ln].
    + rewrite wrap64_small by lia. replace (0 <=? n) with true by (symmetry; apply Z.leb_le; lia).
      unfold compareUint. cbn [asUint]. replace (0 <? z) with true by (symmetry; apply Z.ltb_lt; lia).
      cbn [andb]. split; [lia|reflexivity].
    + assert (W : wrap64 n < 0).
      { destruct (wrap64_reduced n) as [R [k K]]. lia. }
      replace (0 <=? wrap64 n) with false by (symmetry; apply Z.leb_gt; lia).
      unfold compareInt. cbn [asInt]. replace (n <=? maxInt64) with false by (symmetry; apply Z.leb_gt; unfold maxInt64; lia).
      cbn [andb]. split; [intro E; inversion E|lia].
  - destruct (Z.leb_spec 0 z) as [Qz|Qz].
    + assert (z = 0) by lia. subst. unfold compareUint. cbn [asUint Z.ltb Z.compare andb]. split; [intro E; inversion E | lia].
    + unfold compareInt. cbn [asInt].
      destruct (Z_lt_le_dec n (2 ^ 63)) as [Ln|Ln].
      * rewrite wrap64_small by lia. replace (n <=? maxInt64) with true by (symmetry; apply Z.leb_le; unfold maxInt64; lia).
        cbn [andb]. rewrite <- cmpZ_swap. split; [lia|reflexivity].
      * replace (n <=? maxInt64) with false by (symmetry; apply Z.leb_gt; unfold maxInt64; lia).
        cbn [andb]. split; [intro E; inversion E|lia].
Qed.

(** A signed against an unsigned integer: right and valid exactly when the
    unsigned one is below 2^63 and the signed one is not zero. *)
Theorem C33_mixed : forall o z n, - 2 ^ 63 <= z < 2 ^ 63 -> 0 <= n < 2 ^ 64 ->
  (compare o (plain (VInt z)) (plain (VUint n)) = (sgn z n, true) <-> (n < 2 ^ 63 /\ z <> 0)) /\
  (compare o (plain (VUint n)) (plain (VInt z)) = (sgn n z, true) <-> (n < 2 ^ 63 /\ z <> 0)).
Proof.
  intros o z n Hz Hn. split; [|now apply mixed_core].
  rewrite <- (mixed_core o z n Hz Hn).
  pose proof (C32_documents o (plain (VUint n)) (plain (VInt z)) eq_refl eq_refl) as S.
  destruct (compare o (plain (VUint n)) (plain (VInt z))) as [r ok]. rewrite S.
  rewrite <- !cmpZ_sgn, (cmpZ_swap n z). split; intro E; inversion E; f_equal; lia.
Qed.

Example C33_example : forall o,
  compare o (plain (VInt (-3))) (plain (VUint 9223372036854775807)) = (-1, true) /\
  compare o (plain (VUint 4)) (plain (VInt 4)) = (0, true).
Proof. intro o. split; reflexivity. Qed.

(** As first stated the property fails: 0 does not equal 0, and a huge unsigned
    integer sorts below 5. *)
Theorem C33_zero_refuted : forall o,
  compare o (plain (VInt 0)) (plain (VUint 0)) = (0, false) /\
  fst (equals o (plain (VInt 0)) (plain (VUint 0))) = false /\
  compare o (plain (VUint (2 ^ 63))) (plain (VInt 5)) = (-1, false).
Proof. intro o. repeat split; reflexivity. Qed.

(** ** C34: equality *)

Theorem C34_equals_is_compare_zero : forall o v w,
  (fst (equals o v w) = true <-> compare o v w = (0, true)) /\ snd (equals o v w) = snd (compare o v w).
Proof.
  intros. unfold equals. destruct (compare o v w) as [r []]; cbn; split; auto.
  - rewrite Z.eqb_eq. split; congruence.
  - split; congruence.
Qed.

Theorem C34_symmetric : forall o v w,
  ~ (userDefined v = true /\ userDefined w = true) ->
  fst (equals o v w) = true ->
  (userDefined v = true -> isUInt (fv v) = true -> isInt (fv w) = true -> snd (asUint o (fv w)) = true) ->
  (userDefined w = true -> isUInt (fv w) = true -> isInt (fv v) = true -> snd (asUint o (fv v)) = true) ->
  fst (equals o w v) = true.
Proof.
  intros o v w Hu E H1 H2.
  apply (C34_equals_is_compare_zero o v w) in E.
  apply (C34_equals_is_compare_zero o w v).
  pose proof (C32_antisymmetric o v w Hu H1 H2) as S. rewrite E in S. exact S.
Qed.

(** Types on which equality is identity of contents. *)
Definition exactType (t : vtype) : bool :=
  match t with
  | NullValue | FalseValue | TrueValue | UintValue | IntValue | StringValue | BinStringValue
  | JsonStringValue | TimeValue | ArrayValue | ObjectValue => true
  | _ => false
  end.

(** Bytes really are bytes. *)
Definition byteVal (v : fval) : Prop :=
  match v with VString s => all_bytes s | v => all_bytes (sliceData v) end.

Theorem C34_equal_iff_identical : forall o v w,
  dataType (fv v) = dataType (fv w) -> exactType (dataType (fv v)) = true ->
  byteVal (fv v) -> byteVal (fv w) ->
  (fst (equals o v w) = true <-> fv v = fv w).
Proof.
  intros o v w T X Bv Bw.
  assert (C : compare o v w = compareInternal o v w \/ compare o v w = flip (compareInternal o w v)).
  { assert (S : isSameDataTypeAs (fv v) (fv w) = true).
    { unfold isSameDataTypeAs. apply orb_true_iff. left. now apply vtype_eqb_eq. }
    assert (S' : isSameDataTypeAs (fv w) (fv v) = true) by now rewrite isSame_sym.
    unfold compare, compareUserDefined, checkCompatibility. rewrite S, S'. cbn [negb].
    destruct (userDefined v), (userDefined w); cbn; auto using reverse_flip. }
  assert (S : isSameDataTypeAs (fv v) (fv w) = true).
  { unfold isSameDataTypeAs. apply orb_true_iff. left. now apply vtype_eqb_eq. }
  rewrite <- (same_type_swap o w v) in C by now rewrite isSame_sym.
  assert (C' : compare o v w = compareInternal o v w) by tauto. clear C.
  rewrite (proj1 (C34_equals_is_compare_zero o v w)), C'.
  destruct (fv v) eqn:Ev, (fv w) eqn:Ew; try discriminate T; try discriminate X;
    unfold compareInternal; rewrite ?Ev, ?Ew; cbn [compareNumerics].
  - cbn. tauto.
  - cbn. tauto.
  - cbn. tauto.
  - unfold compareUint. cbn. destruct (cmpZ_spec n n0) as [[-> L]|[[-> L]|[-> L]]]; split; intro H; inversion H; subst; try lia; reflexivity.
  - rewrite compareInt_plain by reflexivity. cbn. destruct (cmpZ_spec z z0) as [[-> L]|[[-> L]|[-> L]]]; split; intro H; inversion H; subst; try lia; reflexivity.
  - rewrite compareStrings_strings by (now rewrite Ew). rewrite Ew. cbn. split; intro H.
    + inversion H as [H1]. apply cmpBytes_eq in H1. f_equal. now apply (quote_inj o).
    + inversion H; subst. f_equal. now apply cmpBytes_eq.
  - rewrite compareStrings_strings by (now rewrite Ew). rewrite Ew. cbn. split; intro H.
    + inversion H as [H1]. apply cmpBytes_eq in H1. f_equal. now apply (quote_inj o).
    + inversion H; subst. f_equal. now apply cmpBytes_eq.
  - rewrite compareStrings_strings by (now rewrite Ew). rewrite Ew. cbn. split; intro H.
    + inversion H as [H1]. apply cmpBytes_eq in H1. now f_equal.
    + inversion H; subst. f_equal. now apply cmpBytes_eq.
  - unfold compareTime. cbn. destruct (cmpZ_spec t t0) as [[-> L]|[[-> L]|[-> L]]]; split; intro H; inversion H; subst; try lia; reflexivity.
  - rewrite compareObjArr_form by reflexivity. cbn [sliceData].
    destruct (Nat.ltb_spec (List.length b0) (List.length b)); [split; intro Q; inversion Q; subst; lia|].
    destruct (Nat.ltb_spec (List.length b) (List.length b0)); [split; intro Q; inversion Q; subst; lia|].
    split; intro Q; inversion Q as [Q1].
    + apply cmpSame_eq in Q1; [now subst|lia].
    + subst. f_equal. now apply cmpSame_eq.
  - rewrite compareObjArr_form by reflexivity. cbn [sliceData].
    destruct (Nat.ltb_spec (List.length b0) (List.length b)); [split; intro Q; inversion Q; subst; lia|].
    destruct (Nat.ltb_spec (List.length b) (List.length b0)); [split; intro Q; inversion Q; subst; lia|].
    split; intro Q; inversion Q as [Q1].
    + apply cmpSame_eq in Q1; [now subst|lia].
    + subst. f_equal. now apply cmpSame_eq.
Qed.

(** Hence an equivalence on each such type. *)
Theorem C34_equivalence : forall o u v w,
  dataType (fv u) = dataType (fv v) -> dataType (fv v) = dataType (fv w) ->
  exactType (dataType (fv v)) = true ->
  byteVal (fv u) -> byteVal (fv v) -> byteVal (fv w) ->
  fst (equals o v v) = true /\
  (fst (equals o u v) = true -> fst (equals o v w) = true -> fst (equals o u w) = true).
Proof.
  intros o u v w T1 T2 X Bu Bv Bw. split.
  - now apply C34_equal_iff_identical.
  - intros E1 E2.
    apply C34_equal_iff_identical in E1; [|congruence|congruence|assumption|assumption].
    apply C34_equal_iff_identical in E2; [|congruence|congruence|assumption|assumption].
    apply C34_equal_iff_identical; congruence.
Qed.

Example C34_example : forall o,
  fst (equals o (plain (VBinString (s2b "ab"))) (plain (VBinString (s2b "ab")))) = true /\
  fst (equals o (plain (VArray (s2b "[1]"))) (plain (VArray (s2b "[2]")))) = false.
Proof. intro o. split; [apply C34_equal_iff_identical; try reflexivity; repeat constructor | reflexivity]. Qed.

(** A float other than NaN equals itself. *)
Theorem C34_float_reflexive : forall o f u, f <> S754_nan ->
  fst (equals o (FV (VFloat f) u) (FV (VFloat f) u)) = true.
Proof.
  intros o f u N. apply C34_equals_is_compare_zero.
  assert (C : compare o (FV (VFloat f) u) (FV (VFloat f) u) = compareFloat o (VFloat f) (VFloat f)).
  { unfold compare, compareUserDefined. cbn. destruct u; reflexivity. }
  rewrite C. unfold compareFloat. cbn.
  destruct f as [s|s| |s m e]; try congruence; cbn [isNaN orb].
  - destruct s; reflexivity.
  - destruct s; reflexivity.
  - replace (fsub (S754_finite s m e) (S754_finite s m e)) with (S754_zero false).
    + reflexivity.
    + unfold fsub, SFsub. rewrite Z.sub_diag. reflexivity.
Qed.

Theorem C34_nan_refuted : forall o, fst (equals o (plain (VFloat S754_nan)) (plain (VFloat S754_nan))) = false.
Proof. intro o. reflexivity. Qed.

(** Near-equal floats make equality non-transitive. *)
Definition f0 : float := S754_zero false.
Definition f1 : float := S754_finite false 6044629098073146 (-76). (* 8e-8 *)
Definition f2 : float := S754_finite false 6044629098073146 (-75). (* 1.6e-7 *)
Theorem C34_float_transitivity_refuted : forall o,
  fst (equals o (plain (VFloat f0)) (plain (VFloat f1))) = true /\
  fst (equals o (plain (VFloat f1)) (plain (VFloat f2))) = true /\
  fst (equals o (plain (VFloat f0)) (plain (VFloat f2))) = false.
Proof. intro o. repeat split; vm_compute; reflexivity. Qed.

(** ** C35: collation between types *)

Theorem C35_total_preorder : forall u v w,
  fst (collate u u) = 0 /\
  (fst (collate u v) <= 0 \/ fst (collate v u) <= 0) /\
  (fst (collate u v) <= 0 -> fst (collate v w) <= 0 -> fst (collate u w) <= 0) /\
  (fst (collate u v) = 0 <-> dataType u = dataType v).
Proof.
  intros u v w. unfold collate. cbn [fst].
  destruct (cmpZ_spec (vrank (dataType u)) (vrank (dataType u))) as [[-> ?]|[[-> ?]|[-> ?]]]; try lia.
  assert (I : vrank (dataType u) = vrank (dataType v) <-> dataType u = dataType v).
  { split; [|congruence]. intro E. apply vtype_eqb_eq. unfold vtype_eqb. now rewrite E, Z.eqb_refl. }
  destruct (cmpZ_spec (vrank (dataType u)) (vrank (dataType v))) as [[-> ?]|[[-> ?]|[-> ?]]],
    (cmpZ_spec (vrank (dataType v)) (vrank (dataType u))) as [[-> ?]|[[-> ?]|[-> ?]]],
    (cmpZ_spec (vrank (dataType v)) (vrank (dataType w))) as [[-> ?]|[[-> ?]|[-> ?]]],
    (cmpZ_spec (vrank (dataType u)) (vrank (dataType w))) as [[-> ?]|[[-> ?]|[-> ?]]];
    (split; [reflexivity|split; [lia|split; [lia|rewrite <- I; lia]]]).
Qed.

(** Comparison uses that order whenever neither value converts to the other's
    type, and reports the result as not valid. *)
Theorem C35_fallback : forall o v w,
  ~ (isNumeric (fv v) = true /\ isNumeric (fv w) = true) ->
  checkCompatibility o (fv v) (fv w) = false -> checkCompatibility o (fv w) (fv v) = false ->
  compare o v w = collate (fv v) (fv w).
Proof.
  intros o v w N C1 C2.
  assert (S : isSameDataTypeAs (fv v) (fv w) = false).
  { destruct (isSameDataTypeAs (fv v) (fv w)) eqn:E; [|reflexivity].
    unfold checkCompatibility in C1. rewrite E in C1. discriminate. }
  assert (NN : isNumeric (fv v) && isNumeric (fv w) = false).
  { apply not_true_is_false. rewrite andb_true_iff. exact N. }
  unfold compare, compareUserDefined. rewrite C1, C2, S, NN. cbn [negb].
  destruct (userDefined v), (userDefined w); cbn [orb]; try reflexivity.
  destruct (_ <? _); reflexivity.
Qed.

Example C35_example : forall o,
  compare o (plain (VObject (s2b "{}"))) (plain (VArray (s2b "[1,2]"))) = (1, false) /\
  compare o (plain VMissing) (plain (VTime 3)) = (-1, false).
Proof. intro o. split; reflexivity. Qed.

(** The order used by comparison as a whole is not transitive once conversions
    take part: "10" < "9", "9" < 10, yet "10" = 10. *)
Theorem C35_compare_transitivity_refuted : exists a b c, forall o,
  (forall k, o_isPrint o k = true) ->
  compare o a b = (-1, true) /\ compare o b c = (-1, true) /\ compare o a c = (0, true).
Proof.
  exists (plain (VBinString (s2b "10"))), (plain (VBinString (s2b "9"))), (plain (VInt 10)).
  intros o P. repeat split; try reflexivity.
  cbn. rewrite !P. reflexivity.
Qed.

(** ** C36: integer arithmetic *)

(** Soundness: whatever integer comes out is the exact result reduced modulo
    2^64 to its type's range; a float comes out only when a signed and an
    unsigned integer beyond 2^63 meet in SUB or DIV. *)
Theorem C36_sound : forall o p v w a b r,
  holds (fv v) a -> holds (fv w) b -> runOp o p v w = Ok r ->
  match fv r with
  | VInt x => exists e, exact p a b = Some e /\ reduced (- 2 ^ 63) e x
  | VUint x => exists e, exact p a b = Some e /\ reduced 0 e x
  | VFloat _ => (p = OSub \/ p = ODiv) /\ isInt (fv v) = true /\ isUInt (fv w) = true /\ 2 ^ 63 <= b
  | VInvalid => True
  | _ => False
  end.
Proof.
  intros o p v w a b r Hv Hw H. pose proof (arith_ok o p v w a b r Hv Hw H) as X.
  unfold okResult in X. destruct (fv r); auto.
  destruct X as (A & B & C & D). unfold maxInt64 in D. repeat split; auto. lia.
Qed.

(** Completeness: operands below 2^63 whose exact result is below 2^63 give
    exactly that result, provided a zero signed integer does not meet an
    unsigned one. *)
Theorem C36_complete : forall o p v w a b e,
  holds (fv v) a -> holds (fv w) b ->
  a < 2 ^ 63 -> - 2 ^ 63 < b < 2 ^ 63 ->
  (isInt (fv v) = isInt (fv w) \/ (a <> 0 /\ b <> 0)) ->
  exact p a b = Some e -> - 2 ^ 63 <= e < 2 ^ 63 ->
  exists r, runOp o p v w = Ok r /\ holds (fv r) e.
Proof. exact arith_complete. Qed.

Example C36_example : forall o,
  runOp o OSub (plain (VUint 3)) (plain (VInt 10)) = Ok (plain (VInt (-7))) /\
  runOp o OMul (plain (VInt (2 ^ 62))) (plain (VInt 4)) = Ok (plain (VInt 0)) /\
  runOp o ODiv (plain (VInt (-7))) (plain (VUint 2)) = Ok (plain (VInt (-3))) /\
  runOp o OMod (plain (VJsonInt (s2b "-7"))) (plain (VInt 4)) = Ok (plain (VInt (-3))).
Proof. intro o. repeat split; reflexivity. Qed.

(** Without the proviso it fails: 0 + uint(5) is an invalid value. *)
Theorem C36_zero_refuted : exists v w a b, forall o,
  holds (fv v) a /\ holds (fv w) b /\ exact OAdd a b = Some 5 /\ runOp o OAdd v w = Ok (plain VInvalid).
Proof.
  exists (plain (VInt 0)), (plain (VUint 5)), 0, 5. intro o. repeat split; try constructor; lia.
Qed.

(** Negation. *)
Theorem C36_negation : forall o v a, holds (fv v) a -> a < 2 ^ 63 ->
  exists x, mathNeg o v = Ok (plain (VInt x)) /\ reduced (- 2 ^ 63) (- a) x.
Proof.
  intros o v a H L. unfold mathNeg.
  destruct (holds_kind v a H) as [(K & I & N)|(K & I & N)]; rewrite K.
  - destruct (holds_int o _ _ H I) as (_ & E & _). unfold genericInt. rewrite E, N. cbn [andb].
    eexists. split; [reflexivity|]. unfold negateInt. replace (- a) with (-1 * a) by lia. apply wrap64_reduced.
  - destruct (holds_uint o _ _ H I) as (_ & U & E & _). rewrite U. cbn [fst].
    assert (Hm : a <= maxInt64) by (unfold maxInt64; lia).
    replace (maxInt64 <? a) with false by (symmetry; apply Z.ltb_ge; lia).
    unfold genericInt. rewrite (E Hm), N. cbn [andb].
    eexists. split; [reflexivity|]. unfold negateInt. replace (- a) with (-1 * a) by lia. apply wrap64_reduced.
Qed.

(** Absolute value goes through float64: exact below 2^53 ... *)
Theorem C36_absolute : forall o z u, - 2 ^ 53 < z < 2 ^ 53 ->
  mathAbs o (FV (VInt z) u) = Ok (plain (VInt (Z.abs z))).
Proof. exact abs_small. Qed.

(** ... and wrong above. *)
Theorem C36_absolute_refuted : forall o,
  mathAbs o (plain (VInt (2 ^ 53 + 1))) = Ok (plain (VInt (2 ^ 53))).
Proof. intro o. vm_compute. reflexivity. Qed.

(** ** C37: crashes *)

(** A binary arithmetic function crashes exactly on a signed dividend and a zero
    divisor (excepting a signed zero divided by an unsigned zero). *)
Theorem C37_panics_exactly : forall o p v w, in64 (fv v) -> in64 (fv w) ->
  (runOp o p v w = Panic <->
   (p = ODiv \/ p = OMod) /\ isInt (fv v) = true /\
   exists a, holds (fv v) a /\ holds (fv w) 0 /\ (isInt (fv w) = true \/ a <> 0)).
Proof. exact panic_exact. Qed.

(** Hence none of them crashes on a non-zero divisor, and the others never. *)
Theorem C37_nonzero_divisor : forall o p v w, in64 (fv v) -> in64 (fv w) ->
  ~ holds (fv w) 0 -> runOp o p v w <> Panic.
Proof. intros o p v w Wv Ww N H. apply C37_panics_exactly in H; auto. destruct H as (_ & _ & a & _ & Z & _). auto. Qed.

Theorem C37_unary_never : forall o v f g w,
  mathNeg o v <> Panic /\ mathAbs o v <> Panic /\ mathRound o v <> Panic /\
  mathFun1 o f v <> Panic /\ mathFun2 o g v w <> Panic /\ mathDegrees o v <> Panic /\ mathRadiansV o v <> Panic.
Proof.
  intros o v f g w.
  assert (GF : forall h, genericFloat o v h <> Panic).
  { intro h. unfold genericFloat. destruct (asFloat o (fv v)). destruct (_ && _); discriminate. }
  assert (GI : forall h, genericInt o v h <> Panic).
  { intro h. unfold genericInt. destruct (asInt o (fv v)). destruct (_ && _); discriminate. }
  repeat split; try apply GF.
  - unfold mathNeg. destruct (kind v); auto; try discriminate. destruct (_ <? _); auto; discriminate.
  - unfold mathAbs. destruct (isUInt (fv v)); [discriminate|]. destruct (asFloat o (fv v)).
    destruct (negb _); [discriminate|]. destruct (isFloat (fv v)); [discriminate|]. destruct (isInt (fv v)); discriminate.
  - unfold mathRound. destruct (isFloat (fv v)); [destruct (asFloat o (fv v)); discriminate|].
    destruct (_ || _); discriminate.
  - apply generic2Floats_total.
Qed.

Theorem C37_division_by_zero_refuted : forall o,
  runOp o ODiv (plain (VInt 1)) (plain (VInt 0)) = Panic /\
  runOp o OMod (plain (VInt 1)) (plain (VInt 0)) = Panic.
Proof. intro o. split; reflexivity. Qed.

(** ** C49: string equality in filters *)

(** A string constant of a filter ([ToJsonString] applied by the compiler, marked
    as user defined) equals a string read from a document exactly when they are
    the same bytes. *)
Theorem C49_string_constant : forall o s b, all_bytes s -> all_bytes b ->
  let const := FV (fst (toJsonString o (VString s))) true in
  let doc := plain (VBinString b) in
  snd (equals o doc const) = true /\ snd (equals o const doc) = true /\
  (fst (equals o doc const) = true <-> b = s) /\ (fst (equals o const doc) = true <-> b = s).
Proof.
  intros o s b Hs Hb const doc. subst const doc.
  assert (E : compare o (plain (VBinString b)) (FV (VJsonString (quote o s)) true)
              = (- cmpBytes (quote o s) (quote o b), true)) by reflexivity.
  assert (E' : compare o (FV (VJsonString (quote o s)) true) (plain (VBinString b))
              = (cmpBytes (quote o s) (quote o b), true)) by reflexivity.
  cbn [toJsonString fst]. rewrite !(proj1 (C34_equals_is_compare_zero _ _ _)).
  unfold equals. rewrite E, E'. cbn [snd]. repeat split.
  - intro H. inversion H as [H1]. assert (C : cmpBytes (quote o s) (quote o b) = 0) by lia.
    apply cmpBytes_eq in C. symmetry. now apply (quote_inj o).
  - intros ->. f_equal. replace (cmpBytes (quote o s) (quote o s)) with 0; [reflexivity|]. symmetry. now apply cmpBytes_eq.
  - intro H. inversion H as [H1]. apply cmpBytes_eq in H1. symmetry. now apply (quote_inj o).
  - intros ->. f_equal. now apply cmpBytes_eq.
Qed.

Example C49_example : forall o, (forall k, o_isPrint o k = (k <? 128)%N) ->
  fst (equals o (plain (VBinString (s2b "caf" ++ [195%N; 169%N]))) (FV (fst (toJsonString o (VString (s2b "caf" ++ [195%N; 169%N])))) true)) = true.
Proof.
  intros o P. apply C49_string_constant; [| |reflexivity]; repeat constructor.
Qed.

(** ** C50: string order *)

(** Strings of any kind are totally ordered (by their quoted forms). *)
Theorem C50_total_order : forall o u v w,
  isString (fv u) = true -> isString (fv v) = true -> isString (fv w) = true ->
  userDefined u = false -> userDefined v = false -> userDefined w = false ->
  snd (compare o u v) = true /\
  (fst (compare o u v) <= 0 -> fst (compare o v w) <= 0 -> fst (compare o u w) <= 0).
Proof.
  intros o u v w Su Sv Sw Uu Uv Uw.
  assert (G : forall x y, isString (fv x) = true -> isString (fv y) = true -> userDefined x = false -> userDefined y = false ->
    compare o x y = (cmpBytes (sliceData (fst (toJsonStringInternal o (fv x)))) (sliceData (fst (toJsonStringInternal o (fv y)))), true)).
  { intros x y Sx Sy Ux Uy. unfold compare. rewrite Ux, Uy. cbn [orb]. unfold isSameDataTypeAs. rewrite Sx, Sy.
    rewrite orb_true_r.
    assert (T : forall z, isString (fv z) = true -> snd (toJsonStringInternal o (fv z)) = true)
      by (intros z Sz; destruct (fv z); try discriminate; reflexivity).
    assert (C : compareInternal o x y = compareStrings o (fv x) y)
      by (unfold compareInternal; destruct (fv x); try discriminate; reflexivity).
    rewrite C, compareStrings_strings by assumption. now rewrite !T. }
  rewrite !G by assumption. cbn [fst snd]. split; [reflexivity|]. apply cmpBytes_trans.
Qed.

(** It is not the order of their bytes: a newline sorts after "A". *)
Theorem C50_byte_order_refuted : exists a b, cmpBytes a b = -1 /\
  forall o, o_isPrint o 10%N = false -> o_isPrint o 65%N = true ->
  compare o (plain (VBinString a)) (plain (VBinString b)) = (1, true).
Proof.
  exists [10%N], [65%N]. split; [reflexivity|]. intros o P Q. cbn. now rewrite P, Q.
Qed.

(** ** C51: text as a boolean *)

(** Only the words "true" and "false", in any letter case, should be read as
    booleans; the code also accepts bars in place of letters. *)
Definition lower (c : N) : N := if ((65 <=? c) && (c <=? 90))%N then (c + 32)%N else c.

Theorem C51_boolean_words : forall o b, ~ In 124%N b ->
  asBoolean o (VJsonString b) =
  (if bytes_eqb (map lower b) (s2b "true") then (true, true)
   else if bytes_eqb (map lower b) (s2b "false") then (false, true) else (false, false)).
Proof.
  assert (G : forall c up lo, (lo = up + 32)%N -> (65 <= up <= 90)%N -> c <> 124%N -> ci c up lo = (lower c =? lo)%N).
  { intros c up lo -> R Hc. unfold ci, lower.
    destruct ((65 <=? c) && (c <=? 90))%N eqn:E;
      destruct (N.eqb_spec c up), (N.eqb_spec c 124), (N.eqb_spec c (up + 32)), (N.eqb_spec (c + 32) (up + 32));
      cbn; try reflexivity; try contradiction; lia. }
  intros o b NB. cbn [asBoolean].
  assert (T : trueStringRegex b = bytes_eqb (map lower b) (s2b "true")).
  { unfold trueStringRegex. destruct b as [|b1 [|b2 [|b3 [|b4 [|b5 b]]]]]; try reflexivity;
      try (cbn; rewrite ?andb_false_r; reflexivity).
    - cbn in NB. rewrite !G by (try reflexivity; try lia; intro; subst; tauto). cbn. rewrite andb_true_r, !andb_assoc. reflexivity. }
  assert (F : falseStringRegex b = bytes_eqb (map lower b) (s2b "false")).
  { unfold falseStringRegex. destruct b as [|b1 [|b2 [|b3 [|b4 [|b5 [|b6 b]]]]]]; try reflexivity;
      try (cbn; rewrite ?andb_false_r; reflexivity).
    - cbn in NB. rewrite !G by (try reflexivity; try lia; intro; subst; tauto). cbn. rewrite andb_true_r, !andb_assoc. reflexivity. }
  rewrite T, F. reflexivity.
Qed.

Theorem C51_bars_refuted : forall o,
  fst (equals o (FV VTrue true) (plain (VJsonString (s2b "|||e")))) = true.
Proof. intro o. reflexivity. Qed.

Print Assumptions C32_antisymmetric.
Print Assumptions C33_mixed.
Print Assumptions C34_equal_iff_identical.
Print Assumptions C34_equivalence.
Print Assumptions C34_float_reflexive.
Print Assumptions C35_total_preorder.
Print Assumptions C36_sound.
Print Assumptions C36_complete.
Print Assumptions C36_absolute.
Print Assumptions C37_panics_exactly.
Print Assumptions C49_string_constant.
Print Assumptions C50_total_order.
Print Assumptions C51_boolean_words.
