(** Proofs about comparison (MFastVal.v). *)
From Verif Require Import Base MTokenizer MLit MFastVal.
From Coq Require Import List NArith ZArith Arith Lia Bool.
From Coq Require Import ZifyBool ZifyN ZifyNat.
From Coq Require Import Floats.SpecFloat.
Import ListNotations.
Open Scope Z_scope.

(** The result of comparing the other way round. *)
Definition flip (r : Z * bool) : Z * bool := (- fst r, snd r).

Lemma flip_flip : forall r, flip (flip r) = r.
Proof. intros [z b]. unfold flip. cbn. now rewrite Z.opp_involutive. Qed.

Lemma cmpZ_swap : forall a b, cmpZ b a = - cmpZ a b.
Proof.
  intros. unfold cmpZ.
  destruct (Z.ltb_spec a b), (Z.ltb_spec b a); try reflexivity; lia.
Qed.

Lemma cmpZ_spec : forall a b,
  (cmpZ a b = -1 /\ a < b) \/ (cmpZ a b = 0 /\ a = b) \/ (cmpZ a b = 1 /\ b < a).
Proof.
  intros. unfold cmpZ. destruct (Z.ltb_spec a b); [auto|].
  destruct (Z.ltb_spec b a); [auto|]. right. left. split; [reflexivity|lia].
Qed.

Lemma cmpBytes_swap : forall a b, cmpBytes b a = - cmpBytes a b.
Proof.
  induction a as [|x a IH]; destruct b as [|y b]; try reflexivity. cbn.
  destruct (N.ltb_spec x y), (N.ltb_spec y x); try reflexivity; try lia; apply IH.
Qed.

Lemma cmpBytes_range : forall a b, cmpBytes a b = -1 \/ cmpBytes a b = 0 \/ cmpBytes a b = 1.
Proof.
  induction a as [|x a IH]; destruct b as [|y b]; cbn; auto.
  destruct (N.ltb x y); auto. destruct (N.ltb y x); auto.
Qed.

Lemma cmpBytes_eq : forall a b, cmpBytes a b = 0 <-> a = b.
Proof.
  induction a as [|x a IH]; destruct b as [|y b]; cbn; split; intro H;
    try reflexivity; try discriminate.
  - destruct (N.ltb_spec x y); [discriminate|]. destruct (N.ltb_spec y x); [discriminate|].
    apply IH in H. f_equal; [lia|assumption].
  - inversion H; subst. rewrite N.ltb_irrefl. now apply IH.
Qed.

Lemma cmpBytes_trans : forall a b c, cmpBytes a b <= 0 -> cmpBytes b c <= 0 -> cmpBytes a c <= 0.
Proof.
  induction a as [|x a IH]; intros [|y b] [|z c]; cbn; try lia.
  intros H1 H2.
  destruct (N.ltb_spec x y), (N.ltb_spec y x), (N.ltb_spec y z), (N.ltb_spec z y),
    (N.ltb_spec x z), (N.ltb_spec z x); try lia.
  eapply IH; eassumption.
Qed.

Lemma cmpSame_swap : forall a b, length a = length b -> cmpSame b a = - cmpSame a b.
Proof.
  induction a as [|x a IH]; destruct b as [|y b]; intro H; try discriminate; try reflexivity.
  cbn in *. destruct (N.ltb_spec x y), (N.ltb_spec y x); try reflexivity; try lia.
  apply IH. lia.
Qed.

Lemma cmpSame_eq : forall a b, length a = length b -> (cmpSame a b = 0 <-> a = b).
Proof.
  induction a as [|x a IH]; destruct b as [|y b]; intro H; try discriminate; cbn in *.
  - tauto.
  - destruct (N.ltb_spec y x). { split; [discriminate|]. intro E. inversion E. lia. }
    destruct (N.ltb_spec x y). { split; [discriminate|]. intro E. inversion E. lia. }
    rewrite IH by lia. split; intro E; [f_equal; [lia|assumption] | now inversion E].
Qed.

(** ** Floats *)

Lemma SFabs_binary_round : forall s p e,
  SFabs (binary_round 53 1024 s p e) = SFabs (binary_round 53 1024 (negb s) p e).
Proof.
  intros. unfold binary_round. destruct (shl_align p e _) as [mz ez].
  unfold binary_round_aux. destruct (shr_fexp _ _ _ _ _) as [r1 e1].
  destruct (shr_fexp _ _ _ e1 _) as [r2 e2].
  destruct (shr_m r2); cbn; try reflexivity. destruct (e2 <=? _); reflexivity.
Qed.

Lemma SFabs_normalize_opp : forall m e s s',
  SFabs (binary_normalize 53 1024 (- m) e s) = SFabs (binary_normalize 53 1024 m e s').
Proof.
  intros [|m|m] e s s'; cbn [Z.opp binary_normalize].
  - reflexivity.
  - apply (SFabs_binary_round true).
  - apply (SFabs_binary_round false).
Qed.

Lemma fsub_abs_sym : forall x y, SFabs (fsub x y) = SFabs (fsub y x).
Proof.
  intros x y. unfold fsub, SFsub.
  destruct x as [sx|sx| |sx mx ex], y as [sy|sy| |sy my ey]; try reflexivity;
    try (destruct sx, sy; reflexivity).
  rewrite (Z.min_comm ey ex).
  match goal with |- SFabs (binary_normalize _ _ (?a - ?b) ?e ?s) = SFabs (binary_normalize _ _ ?c ?e' ?s') =>
    replace c with (- (a - b)) by ring end.
  symmetry. apply SFabs_normalize_opp.
Qed.

Lemma SFcompare_swap : forall x y,
  SFcompare y x = match SFcompare x y with Some Lt => Some Gt | Some Gt => Some Lt | c => c end.
Proof.
  intros x y.
  destruct x as [sx|sx| |sx mx ex], y as [sy|sy| |sy my ey]; try reflexivity;
    try (destruct sx; reflexivity); try (destruct sy; reflexivity);
    try (destruct sx, sy; reflexivity).
  cbn. destruct sx, sy; try reflexivity.
  - rewrite (Z.compare_antisym ex ey). destruct (ex ?= ey) eqn:E; cbn; try reflexivity.
    change (Pos.compare_cont Eq my mx) with (my ?= mx)%positive.
    change (Pos.compare_cont Eq mx my) with (mx ?= my)%positive.
    rewrite (Pos.compare_antisym mx my). destruct (mx ?= my)%positive; reflexivity.
  - rewrite (Z.compare_antisym ex ey). destruct (ex ?= ey) eqn:E; cbn; try reflexivity.
    change (Pos.compare_cont Eq my mx) with (my ?= mx)%positive.
    change (Pos.compare_cont Eq mx my) with (mx ?= my)%positive.
    rewrite (Pos.compare_antisym mx my). destruct (mx ?= my)%positive; reflexivity.
Qed.

Lemma fltb_asym : forall x y, fltb x y = true -> fltb y x = false.
Proof.
  intros x y. unfold fltb, SFltb. rewrite (SFcompare_swap x y).
  destruct (SFcompare x y) as [[]|]; congruence.
Qed.

Lemma compareFloat_swap : forall o v w, compareFloat o w v = flip (compareFloat o v w).
Proof.
  intros. unfold compareFloat.
  destruct (asFloat o v) as [x ok], (asFloat o w) as [y ok2].
  rewrite (orb_comm (isNaN y)), (andb_comm (isNaN y)), (andb_comm ok2), (fsub_abs_sym y x).
  destruct (isNaN x) eqn:Ex, (isNaN y) eqn:Ey; cbn; try reflexivity.
  destruct (fltb (SFabs (fsub x y)) EPSILON); [reflexivity|].
  destruct (fltb x y) eqn:L; [rewrite (fltb_asym _ _ L); reflexivity|].
  destruct (fltb y x); reflexivity.
Qed.

(** ** The other type-specific comparisons *)

Lemma compareInt_plain : forall o v w,
  isFloat w = false ->
  compareInt o v w = (cmpZ (fst (asInt o v)) (fst (asInt o w)), snd (asInt o v) && snd (asInt o w)).
Proof.
  intros o v w H. unfold compareInt.
  destruct (asInt o v) as [x okx] eqn:Ev, (asInt o w) as [y oky] eqn:Ew; cbn.
  destruct w; try reflexivity; discriminate.
Qed.

Lemma compareInt_swap : forall o v w,
  isFloat v = false -> isFloat w = false -> compareInt o w v = flip (compareInt o v w).
Proof.
  intros. rewrite !compareInt_plain by assumption. unfold flip. cbn.
  rewrite cmpZ_swap, andb_comm. reflexivity.
Qed.

Lemma compareUint_swap : forall o v w, compareUint o w v = flip (compareUint o v w).
Proof.
  intros. unfold compareUint. destruct (asUint o v) as [x okx], (asUint o w) as [y oky].
  unfold flip. cbn. rewrite cmpZ_swap, andb_comm. reflexivity.
Qed.

Lemma compareTime_swap : forall o v w, compareTime o w v = flip (compareTime o v w).
Proof.
  intros. unfold compareTime. destruct (asTime o v), (asTime o w); try reflexivity.
  unfold flip. cbn. now rewrite cmpZ_swap.
Qed.

Lemma compareBoolean_swap : forall o v w, compareBoolean o w v = flip (compareBoolean o v w).
Proof.
  intros. unfold compareBoolean. destruct (asBoolean o v) as [[] []], (asBoolean o w) as [[] []]; reflexivity.
Qed.

Lemma compareNull_swap : forall v w, compareNull w v = flip (compareNull v w).
Proof. intros. unfold compareNull. destruct (isNull v), (isNull w); reflexivity. Qed.

Lemma collate_swap : forall v w, collate w v = flip (collate v w).
Proof. intros. unfold collate, flip. cbn. now rewrite cmpZ_swap. Qed.

Lemma compareStrings_strings : forall o v w,
  isString (fv w) = true ->
  compareStrings o v w =
  (cmpBytes (sliceData (fst (toJsonStringInternal o v))) (sliceData (fst (toJsonStringInternal o (fv w)))),
   snd (toJsonStringInternal o v) && snd (toJsonStringInternal o (fv w))).
Proof.
  intros o v w H. unfold compareStrings. rewrite H. cbn.
  destruct (toJsonStringInternal o v), (toJsonStringInternal o (fv w)). reflexivity.
Qed.

Lemma compareStrings_swap : forall o v w,
  isString (fv v) = true -> isString (fv w) = true ->
  compareStrings o (fv w) v = flip (compareStrings o (fv v) w).
Proof.
  intros. rewrite !compareStrings_strings by assumption. unfold flip. cbn.
  rewrite cmpBytes_swap, andb_comm. reflexivity.
Qed.

Definition isContainer (v : fval) : bool :=
  match v with VArray _ | VObject _ => true | _ => false end.

Lemma compareObjArr_form : forall v w, isContainer v = true ->
  compareObjArrData v w =
  (if Nat.ltb (length (sliceData w)) (length (sliceData v)) then 1
   else if Nat.ltb (length (sliceData v)) (length (sliceData w)) then -1
   else cmpSame (sliceData v) (sliceData w), true).
Proof.
  intros v w H. destruct v; try discriminate; cbn [compareObjArrData sliceData];
    destruct (Nat.ltb _ _); try reflexivity; destruct (Nat.ltb _ _); reflexivity.
Qed.

Lemma compareObjArr_swap : forall v w,
  isContainer v = true -> isContainer w = true ->
  compareObjArrData w v = flip (compareObjArrData v w).
Proof.
  intros v w Hv Hw. rewrite !compareObjArr_form by assumption. unfold flip. cbn [fst snd].
  destruct (Nat.ltb_spec (length (sliceData v)) (length (sliceData w))),
    (Nat.ltb_spec (length (sliceData w)) (length (sliceData v))); try reflexivity; try lia.
  now rewrite (cmpSame_swap (sliceData v) (sliceData w)) by lia.
Qed.

(** ** Internal comparison on compatible kinds *)

Lemma vtype_eqb_eq : forall a b, vtype_eqb a b = true <-> a = b.
Proof.
  intros a b. unfold vtype_eqb. rewrite Z.eqb_eq. split; [|now intros ->].
  destruct a, b; cbn; intro H; try reflexivity; lia.
Qed.

Lemma same_type_swap : forall o v w,
  isSameDataTypeAs (fv v) (fv w) = true ->
  compareInternal o w v = flip (compareInternal o v w).
Proof.
  intros o v w H. unfold isSameDataTypeAs in H. apply orb_true_iff in H as [H|H].
  - apply vtype_eqb_eq in H.
    destruct (fv v) eqn:Ev, (fv w) eqn:Ew; try discriminate H;
      unfold compareInternal; rewrite Ev, Ew; cbn [compareNumerics];
      first [ now apply compareInt_swap | now apply compareUint_swap | now apply compareFloat_swap
            | now apply compareBoolean_swap | now apply compareTime_swap | now apply compareNull_swap
            | now apply collate_swap | now apply compareObjArr_swap
            | rewrite <- Ev, <- Ew; apply compareStrings_swap; [now rewrite Ev | now rewrite Ew] ].
  - apply andb_true_iff in H as [Hv Hw].
    unfold compareInternal.
    destruct (fv v) eqn:Ev; try discriminate Hv; destruct (fv w) eqn:Ew; try discriminate Hw;
      rewrite <- Ev, <- Ew; (apply compareStrings_swap; [now rewrite Ev | now rewrite Ew]).
Qed.

Lemma isSame_sym : forall v w, isSameDataTypeAs v w = isSameDataTypeAs w v.
Proof.
  intros. unfold isSameDataTypeAs, vtype_eqb. now rewrite Z.eqb_sym, (andb_comm (isString v)).
Qed.

Lemma reverse_flip : forall o v w, reverseCompare o v w = flip (compareInternal o w v).
Proof. intros. unfold reverseCompare, flip. destruct (compareInternal o w v). reflexivity. Qed.

(** Two numeric values of which the first is user defined, and the second cannot
    be converted to the first's type - apart from the case that breaks. *)
Definition brokenPair (o : oracles) (u d : fval) : Prop :=
  isUInt u = true /\ isInt d = true /\ snd (asUint o d) = false.

Lemma incompatible_numeric_swap : forall o v w,
  isNumeric (fv v) = true -> isNumeric (fv w) = true ->
  checkCompatibility o (fv v) (fv w) = false ->
  ~ brokenPair o (fv v) (fv w) ->
  compareInternal o w v = flip (compareInternal o v w).
Proof.
  intros o v w Hv Hw Hc Hb. unfold brokenPair in Hb. unfold compareInternal.
  destruct (fv v) eqn:Ev; try discriminate Hv; destruct (fv w) eqn:Ew; try discriminate Hw;
    try discriminate Hc; cbn [compareNumerics];
    first [ now apply compareInt_swap | now apply compareUint_swap | now apply compareFloat_swap | idtac ];
    exfalso; apply Hb; (split; [reflexivity|split; [reflexivity|exact Hc]]).
Qed.

Definition antisymmetric_pair (o : oracles) (v w : fastval) : Prop :=
  compare o w v = flip (compare o v w).

(** Comparison the other way round, outside the broken pair. *)
Lemma compare_flip : forall o v w,
  ~ (userDefined v = true /\ userDefined w = true) ->
  (userDefined v = true -> ~ brokenPair o (fv v) (fv w)) ->
  (userDefined w = true -> ~ brokenPair o (fv w) (fv v)) ->
  compare o w v = flip (compare o v w).
Proof.
  assert (User : forall o v w, userDefined v = true -> userDefined w = false ->
            ~ brokenPair o (fv v) (fv w) -> compare o w v = flip (compare o v w)).
  { intros o v w Hv Hw Hb. unfold compare. rewrite Hv, Hw. cbn.
    unfold compareUserDefined. rewrite Hv, Hw. rewrite (andb_comm (isNumeric (fv w))).
    destruct (checkCompatibility o (fv v) (fv w)) eqn:C; cbn [negb].
    - apply reverse_flip.
    - destruct (isNumeric (fv v) && isNumeric (fv w)) eqn:N.
      + apply andb_true_iff in N as [N1 N2]. rewrite !reverse_flip, flip_flip.
        now rewrite (incompatible_numeric_swap o v w N1 N2 C Hb).
      + apply collate_swap. }
  intros o v w Hu Hb1 Hb2.
  destruct (userDefined v) eqn:Uv, (userDefined w) eqn:Uw.
  - tauto.
  - now apply User; auto.
  - rewrite <- (flip_flip (compare o w v)). f_equal. symmetry. now apply User; auto.
  - unfold compare. rewrite Uv, Uw. cbn. rewrite isSame_sym.
    destruct (isSameDataTypeAs (fv v) (fv w)) eqn:S.
    + now apply same_type_swap.
    + assert (R : vrank (dataType (fv v)) <> vrank (dataType (fv w))).
      { intro E. unfold isSameDataTypeAs, vtype_eqb in S. rewrite E, Z.eqb_refl in S. discriminate. }
      destruct (Z.ltb_spec (vrank (dataType (fv v))) (vrank (dataType (fv w)))) as [L|L];
        destruct (Z.ltb_spec (vrank (dataType (fv w))) (vrank (dataType (fv v)))) as [L2|L2]; try lia;
        destruct (checkCompatibility o (fv v) (fv w)), (checkCompatibility o (fv w) (fv v)); cbn;
        rewrite ?reverse_flip, ?flip_flip; try reflexivity; apply collate_swap.
Qed.
