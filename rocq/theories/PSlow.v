(** Proofs about the reference matcher: values. *)
From Verif Require Import Base MTokenizer SJson SUnicode SNames MLit PLit MFastVal PFastVal PFloat PQuote SEvents MExpr MExprJson MTransform MMatcher MTree SFilter SDoc SSat SSem PTrace PMatch TNames MSlow SSlow.
From Coq Require Import List NArith ZArith Arith Lia Bool Permutation.
From Coq Require Import Floats.SpecFloat.
From Coq Require Import ZifyBool ZifyN ZifyNat.
Import ListNotations.
Open Scope Z_scope.

(** ** Small integers as floats *)
Lemma Z2f_norm : forall p, Zpos p < 2 ^ 53 ->
  exists m e, Z2f (Zpos p) = S754_finite false m e /\ Z2f (Zneg p) = S754_finite true m e
              /\ -53 < e <= 0 /\ Zpos m = Zpos p * 2 ^ (- e) /\ 2 ^ 52 <= Zpos m < 2 ^ 53.
Proof.
  intros p H. pose proof (small_digits p H) as D.
  assert (forall m, Zpos (digits2_pos m) = 53 -> 2 ^ 52 <= Zpos m < 2 ^ 53) as B.
  { intros m E. destruct (digits_bound m) as [A C]. rewrite E in *. lia. }
  unfold Z2f, binary_normalize, binary_round.
  assert (F : fexp 53 1024 (Zpos (digits2_pos p) + 0) = Zpos (digits2_pos p) - 53) by (unfold fexp, emin; lia).
  rewrite F. unfold shl_align. rewrite Z.sub_0_r.
  destruct (Zpos (digits2_pos p) - 53) as [|k|k] eqn:K.
  - exists p, 0. rewrite !round_aux_exact by lia. split; [reflexivity|]. split; [reflexivity|]. split; [lia|]. split; [cbn; lia|]. apply B. lia.
  - lia.
  - exists (shift_pos k p), (Zneg k). rewrite !round_aux_exact by (rewrite ?digits_shift; lia).
    split; [reflexivity|]. split; [reflexivity|]. split; [lia|]. split; [rewrite shift_value; reflexivity|]. apply B. rewrite digits_shift. lia.
Qed.

Lemma pos_compare : forall p q mp ep mq eq_, Zpos mp = Zpos p * 2 ^ (- ep) -> Zpos mq = Zpos q * 2 ^ (- eq_) ->
  2 ^ 52 <= Zpos mp < 2 ^ 53 -> 2 ^ 52 <= Zpos mq < 2 ^ 53 -> -53 < ep <= 0 -> -53 < eq_ <= 0 ->
  (match ep ?= eq_ with Eq => Pos.compare_cont Eq mp mq | c => c end) = (p ?= q)%positive.
Proof.
  assert (forall p q mp ep mq eq_, Zpos mp = Zpos p * 2 ^ (- ep) -> Zpos mq = Zpos q * 2 ^ (- eq_) ->
    2 ^ 52 <= Zpos mp < 2 ^ 53 -> 2 ^ 52 <= Zpos mq < 2 ^ 53 -> -53 < ep <= 0 -> -53 < eq_ <= 0 -> ep < eq_ -> Zpos p < Zpos q) as L.
  { intros p q mp ep mq eq_ Ep HQ Bp Bq Rp Rq HL.
    assert (2 ^ (- ep) = 2 ^ (- eq_) * 2 ^ (eq_ - ep)) as E by (rewrite <- Z.pow_add_r by lia; f_equal; lia).
    assert (2 <= 2 ^ (eq_ - ep)) as T by (replace (eq_ - ep) with (1 + (eq_ - ep - 1)) by lia; rewrite Z.pow_add_r by lia; pose proof (Z.pow_pos_nonneg 2 (eq_ - ep - 1)); lia).
    pose proof (Z.pow_pos_nonneg 2 (- eq_) ltac:(lia) ltac:(lia)) as P.
    set (u := 2 ^ (- eq_)) in *. set (w := 2 ^ (eq_ - ep)) in *. rewrite E in Ep.
    change (2 ^ 53) with (2 * 2 ^ 52) in *. nia. }
  intros p q mp ep mq eq_ Ep HQ Bp Bq Rp Rq. destruct (Z.compare_spec ep eq_) as [->|HL|HL].
  - change (Pos.compare_cont Eq mp mq) with (mp ?= mq)%positive. pose proof (Z.pow_pos_nonneg 2 (- eq_) ltac:(lia) ltac:(lia)) as P.
    destruct (Pos.compare_spec p q) as [->|HL|HL].
    + assert (mp = mq) as -> by lia. apply Pos.compare_refl.
    + apply Pos.compare_lt_iff. assert (Zpos mp < Zpos mq) by (rewrite Ep, HQ; apply Z.mul_lt_mono_pos_r; lia). lia.
    + apply Pos.compare_gt_iff. assert (Zpos mq < Zpos mp) by (rewrite Ep, HQ; apply Z.mul_lt_mono_pos_r; lia). lia.
  - symmetry. apply Pos.compare_lt_iff. pose proof (L p q mp ep mq eq_ Ep HQ Bp Bq Rp Rq HL). lia.
  - symmetry. apply Pos.compare_gt_iff. pose proof (L q p mq eq_ mp ep HQ Ep Bq Bp Rq Rp HL). lia.
Qed.

Definition safe (a : Z) : Prop := - 2 ^ 53 < a < 2 ^ 53.
Lemma Z2f_compare : forall a b, safe a -> safe b -> SFcompare (Z2f a) (Z2f b) = Some (a ?= b).
Proof.
  unfold safe. intros a b Ha Hb.
  destruct a as [|p|p], b as [|q|q]; try reflexivity;
    try (destruct (Z2f_norm q ltac:(lia)) as (mq & eq_ & Eq & Eq' & Rq & Mq & Bq));
    try (destruct (Z2f_norm p ltac:(lia)) as (mp & ep & Ep & Ep' & Rp & Mp & Bp)); rewrite ?Ep, ?Eq, ?Ep', ?Eq'; try reflexivity.
  - cbn [SFcompare]. change (Zpos p ?= Zpos q) with (p ?= q)%positive. rewrite <- (pos_compare p q mp ep mq eq_) by auto. destruct (ep ?= eq_); reflexivity.
  - cbn [SFcompare]. change (Zneg p ?= Zneg q) with (CompOpp (p ?= q)%positive). rewrite <- (pos_compare p q mp ep mq eq_) by auto.
    destruct (ep ?= eq_); reflexivity.
Qed.
Lemma Z2f_ltb : forall a b, safe a -> safe b -> fltb (Z2f a) (Z2f b) = (a <? b).
Proof. intros a b Ha Hb. unfold fltb, SFltb, Z.ltb. now rewrite Z2f_compare. Qed.

(** ** Comparing floats with the tolerance *)
Definition cmpF (x y : float) : Z :=
  if isNaN x || isNaN y then (if isNaN x && isNaN y then 0 else if isNaN x then -1 else 1)
  else if fltb (SFabs (fsub x y)) EPSILON then 0 else if fltb x y then -1 else if fltb y x then 1 else 0.
Lemma cmpF_zero : forall s s' y, cmpF (S754_zero s) y = cmpF (S754_zero s') y.
Proof. intros s s' [t|t| |t m e]; destruct s, s'; try destruct t; reflexivity. Qed.
Lemma cmpF_zero_r : forall s s' y, cmpF y (S754_zero s) = cmpF y (S754_zero s').
Proof. intros s s' [t|t| |t m e]; destruct s, s'; try destruct t; reflexivity. Qed.
Lemma cmpF_clear : forall x y, x <> S754_nan -> y <> S754_nan -> clear x y ->
  cmpF x y = if fltb x y then -1 else if fltb y x then 1 else 0.
Proof.
  intros x y Hx Hy HC. unfold cmpF. replace (isNaN x || isNaN y) with false by (destruct x, y; auto; contradiction).
  destruct HC as [E|E].
  - assert (fltb x y = false /\ fltb y x = false) as [-> ->].
    { unfold fltb, SFltb. rewrite E. rewrite SFcompare_swap, E. auto. }
    now destruct (fltb _ EPSILON).
  - now rewrite E.
Qed.
Lemma cmpF_swap : forall (o : oracles) x y, cmpF y x = - cmpF x y.
Proof.
  intros o x y. pose proof (compareFloat_swap o (VFloat x) (VFloat y)) as E. unfold compareFloat in E. cbn [asFloat] in E.
  unfold cmpF. apply (f_equal fst) in E. unfold flip in E.
  destruct (isNaN x || isNaN y) eqn:E1; rewrite (orb_comm (isNaN y)), E1 in *; [exact E|].
  destruct (fltb (SFabs (fsub x y)) EPSILON), (fltb (SFabs (fsub y x)) EPSILON); try exact E; destruct (fltb x y), (fltb y x); exact E.
Qed.

(** ** Quoting printable strings changes nothing *)
Lemma decodeRune_utf8 : forall u t, SUnicode.scalar u -> decodeRune (utf8 u ++ t) = (u, length (utf8 u)).
Proof.
  intros u t Hu. unfold SUnicode.scalar in Hu. unfold utf8.
  destruct (N.ltb_spec u 128) as [H1|H1].
  { cbn [app]. unfold decodeRune. replace (u <? 128)%N with true by lia. reflexivity. }
  pose proof (N.div_mod u 64 ltac:(lia)) as D1. pose proof (N.mod_lt u 64 ltac:(lia)) as M1.
  destruct (N.ltb_spec u 2048) as [H2|H2].
  { cbn [app]. set (a := (u / 64)%N) in *. set (b := (u mod 64)%N) in *. unfold decodeRune, cont.
    replace (192 + a <? 128)%N with false by lia. replace ((194 <=? 192 + a) && (192 + a <=? 223))%N with true by lia.
    replace ((128 <=? 128 + b) && (128 + b <=? 191))%N with true by lia. cbn [length]. f_equal. lia. }
  pose proof (N.div_mod (u / 64) 64 ltac:(lia)) as D2. pose proof (N.mod_lt (u / 64) 64 ltac:(lia)) as M2.
  assert (u / 64 / 64 = u / 4096)%N as Q2 by (rewrite N.div_div by lia; reflexivity). rewrite Q2 in D2.
  destruct (N.ltb_spec u 65536) as [H3|H3].
  { cbn [app]. set (a := (u / 4096)%N) in *. set (b := ((u / 64) mod 64)%N) in *. set (c := (u mod 64)%N) in *. unfold decodeRune, cont.
    replace (224 + a <? 128)%N with false by lia. replace ((194 <=? 224 + a) && (224 + a <=? 223))%N with false by lia.
    replace ((224 <=? 224 + a) && (224 + a <=? 239))%N with true by lia.
    destruct (N.eqb_spec (224 + a) 224), (N.eqb_spec (224 + a) 237); try lia;
      match goal with |- context [if ?c then _ else _] => replace c with true by lia end; cbn [length]; f_equal; lia. }
  pose proof (N.div_mod (u / 4096) 64 ltac:(lia)) as D3. pose proof (N.mod_lt (u / 4096) 64 ltac:(lia)) as M3.
  assert (u / 4096 / 64 = u / 262144)%N as Q3 by (rewrite N.div_div by lia; reflexivity). rewrite Q3 in D3.
  cbn [app]. set (a := (u / 262144)%N) in *. set (b := ((u / 4096) mod 64)%N) in *. set (c := ((u / 64) mod 64)%N) in *. set (d := (u mod 64)%N) in *. unfold decodeRune, cont.
  replace (240 + a <? 128)%N with false by lia. replace ((194 <=? 240 + a) && (240 + a <=? 223))%N with false by lia.
  replace ((224 <=? 240 + a) && (240 + a <=? 239))%N with false by lia. replace ((240 <=? 240 + a) && (240 + a <=? 244))%N with true by lia.
  destruct (N.eqb_spec (240 + a) 240), (N.eqb_spec (240 + a) 244); try lia;
    match goal with |- context [if ?c then _ else _] => replace c with true by lia end; cbn [length]; f_equal; lia.
Qed.
Lemma utf8_nonempty : forall u, exists a r, utf8 u = a :: r.
Proof. intro u. unfold utf8. destruct (u <? 128)%N, (u <? 2048)%N, (u <? 65536)%N; eauto. Qed.
Lemma quoteBody_print : forall o us f, Forall (fun u => SUnicode.scalar u /\ o_isPrint o u = true /\ u <> 34%N /\ u <> 92%N) us ->
  (length (utf8s us) <= f)%nat -> quoteBody o f (utf8s us) = utf8s us.
Proof.
  intros o us. induction us as [|u us IH]; intros f HF HL; [destruct f; reflexivity|].
  inversion HF as [|? ? (Hs & Hp & H1 & H2) HF']; subst. cbn [utf8s flat_map] in *. fold (utf8s us) in *.
  destruct (utf8_nonempty u) as (a & r & E). rewrite app_length in HL.
  destruct f as [|f]; [rewrite E in HL; cbn in HL; lia|].
  assert (exists z, utf8 u ++ utf8s us = a :: z) as (z & Ez) by (rewrite E; cbn; eauto). rewrite Ez. cbn [quoteBody]. rewrite <- Ez.
  rewrite decodeRune_utf8 by auto.
  replace ((128 <=? a)%N && Nat.eqb (length (utf8 u)) 1 && (u =? 65533)%N) with false.
  2:{ destruct (N.eqb_spec u 65533) as [->|]; [|now rewrite andb_false_r]. cbn. now rewrite andb_false_r. }
  unfold escapedRune. rewrite Hp. replace ((u =? 34)%N || (u =? 92)%N) with false by lia. rewrite encodeRune_utf8 by auto.
  rewrite skipn_app, skipn_all, Nat.sub_diag. cbn [app skipn]. rewrite IH; auto. rewrite E in HL. cbn in HL. lia.
Qed.
Lemma quote_print : forall o s, printable o s -> quote o s = s.
Proof. intros o s (us & -> & HF). apply quoteBody_print; auto. Qed.

(** ** Operands *)
(** As the reference matcher has them. *)
Definition opDec (o : oracles) (a : operand) (s : sval) : Prop :=
  match a with OC g => s = svalue g | OD v => exists j, decodes o v j /\ s = SV j end.
(** As the matcher has them. *)
Definition opFast (o : oracles) (a : operand) : outcome fastval :=
  match a with OC g => constRef o (XValue g) | OD v => valOf o v end.
Definition opWf (a : operand) : Prop := match a with OC _ => True | OD v => wf_cst v end.

(** The answers agree, for equality only when [eqOnly]. *)
Definition agree (eqOnly : Prop) (p : Z * bool) (c : Z) : Prop :=
  (fst p = 0 <-> c = 0) /\ (c = 0 -> snd p = true) /\ (eqOnly \/ Z.sgn (fst p) = Z.sgn c).
Lemma agree_same : forall E c, agree E (c, true) c.
Proof. intros E c. repeat split; auto. Qed.

Lemma op_str : forall o a s x, opDec o a (SV (JStr s)) -> opFast o a = Ok x ->
  text a s /\ (x = plain (VBinString s) \/ x = FV (VJsonString (quote o s)) true).
Proof.
  intros o [g|v] s x HD HF.
  - cbn [opDec] in HD. destruct g; try discriminate HD. injection HD as <-. cbn in HF. injection HF as <-. split; auto. now left.
  - destruct HD as (j & HD & E). injection E as <-. inversion HD as [| | | |t y us Hs Hn| |]; subst.
    cbn [opFast] in HF. rewrite (lit_name o _ _ _ Hn) in HF. injection HF as <-. split; auto. right. eauto.
Qed.
Lemma compare_strings : forall o x y s t,
  (x = plain (VBinString s) \/ x = FV (VJsonString (quote o s)) true) -> (y = plain (VBinString t) \/ y = FV (VJsonString (quote o t)) true) ->
  compare o x y = (cmpBytes (quote o s) (quote o t), true).
Proof.
  intros o x y s t [-> | ->] [-> | ->]; try reflexivity.
  transitivity (- cmpBytes (quote o t) (quote o s), true); [reflexivity|]. now rewrite (cmpBytes_swap (quote o s)), Z.opp_involutive.
Qed.

Lemma op_num : forall o a f x, parsesIntegers o -> opWf a -> opDec o a (SV (JNum f)) -> opFast o a = Ok x -> safeLit a ->
  number o a f /\ ((~ wholeLit a /\ exists u, x = FV (VFloat f) u) \/
    exists z, wholeLit a /\ safe z /\ x = plain (VInt z) /\ (f = Z2f z \/ z = 0 /\ f = S754_zero true)).
Proof.
  intros o [g|v] f x HP HW HD HF HS.
  - cbn [opDec] in HD. destruct g; try discriminate HD. injection HD as <-. cbn in HF. injection HF as <-. split; [now left|]. left. split; [intros (y & E); discriminate E|eauto].
  - destruct HD as (j & HD & E). injection E as <-. inversion HD as [| | |t y f' Hk Hf| | |]; subst.
    split; [right; eauto 6|]. unfold num_kind in Hk. cbn [In] in Hk. destruct Hk as [<-|[<-|[]]].
    + right. cbn in HF. injection HF as <-. specialize (HS y eq_refl). destruct HW as [_ HW]. assert (int_part y) as HI by (inversion HW; auto).
      destruct (HP y HI HS) as (f' & E & Ev). rewrite Hf in E. injection E as <-. exists (int_val y). split; [exists y; reflexivity|]. split; [exact HS|].
      split; [|exact Ev]. rewrite parseInt_exact; auto. unfold in_int64. lia.
    + left. cbn in HF. rewrite Hf in HF. injection HF as <-. split; [intros (y' & E); discriminate E|now exists false].
Qed.
Lemma compare_floats : forall o v w u u', isFloat v || isFloat w = true ->
  match v with VFloat _ | VInt _ => True | _ => False end -> match w with VFloat _ | VInt _ => True | _ => False end ->
  compare o (FV v u) (FV w u') = (cmpF (fst (asFloat o v)) (fst (asFloat o w)), negb (isNaN (fst (asFloat o v)) || isNaN (fst (asFloat o w)))).
Proof.
  intros o v w u u' HI HV HW.
  assert (forall x y, (if isNaN x || isNaN y then (if isNaN x && isNaN y then 0 else if isNaN x then -1 else 1, false)
     else if fltb (SFabs (fsub x y)) EPSILON then (0, true && true) else if fltb x y then (-1, true && true) else if fltb y x then (1, true && true) else (0, true && true))
     = (cmpF x y, negb (isNaN x || isNaN y))) as F.
  { intros x y. unfold cmpF. destruct (isNaN x || isNaN y); [reflexivity|]. destruct (fltb _ EPSILON), (fltb x y), (fltb y x); reflexivity. }
  assert (forall x y, (let '(r, ok) := (cmpF y x, negb (isNaN y || isNaN x)) in (- r, ok)) = (cmpF x y, negb (isNaN x || isNaN y))) as R.
  { intros x y. rewrite (cmpF_swap o x y), Z.opp_involutive, orb_comm. reflexivity. }
  destruct v; try contradiction; destruct w; try contradiction; try discriminate HI;
    unfold compare, compareUserDefined, reverseCompare; destruct u, u';
    cbn [userDefined orb fv checkCompatibility isSameDataTypeAs vtype_eqb vrank dataType isString andb orb Z.eqb Pos.eqb Z.ltb Z.compare Pos.compare Pos.compare_cont
         isNull implicitConv negb compareInternal compareNumerics isNumeric isInt isUInt isFloat];
    unfold compareFloat; cbn [asFloat fst]; rewrite ?F, ?R; reflexivity.
Qed.

Lemma op_bool : forall o a b x, opDec o a (SV (JBool b)) -> opFast o a = Ok x -> exists u, x = FV (if b then VTrue else VFalse) u.
Proof.
  intros o [g|v] b x HD HF.
  - cbn [opDec] in HD. destruct g; try discriminate HD. injection HD as <-. cbn in HF. injection HF as <-. exists true. now destruct b.
  - destruct HD as (j & HD & E). injection E as <-. inversion HD; subst; cbn in HF; injection HF as <-; now exists false.
Qed.
Lemma op_null : forall o a x, opDec o a (SV JNull) -> opFast o a = Ok x -> exists u, x = FV VNull u.
Proof.
  intros o [g|v] x HD HF.
  - cbn [opDec] in HD. destruct g; try discriminate HD. cbn in HF. injection HF as <-. now exists true.
  - destruct HD as (j & HD & E). injection E as <-. inversion HD; subst; cbn in HF; injection HF as <-; now exists false.
Qed.
Lemma op_any : forall o a s x, opDec o a s -> opFast o a = Ok x -> a <> OC GOther ->
  (fv x <> VMissing /\ fv x <> VInvalid) /\ (fv x = VNull -> s = SV JNull).
Proof.
  intros o [g|v] s x HD HF HN.
  - cbn [opDec] in HD. subst s. cbn in HF. injection HF as <-. destruct g as [| | |[] | | | | |]; cbn; repeat split; try discriminate; auto; contradiction HN; reflexivity.
  - destruct HD as (j & HD & ->). inversion HD; subst; cbn [opFast valOf parseLit] in HF; try (injection HF as <-; cbn; repeat split; discriminate || auto).
    + unfold num_kind in H. cbn [In] in H. destruct H as [<-|[<-|[]]]; cbn in HF; injection HF as <-; cbn; repeat split; discriminate.
    + pose proof (lit_name o _ _ _ H0) as L. cbn [valOf] in L. rewrite L in HF. injection HF as <-. cbn. repeat split; discriminate.
Qed.
Lemma compare_null : forall o u w u', w <> VNull -> w <> VMissing -> w <> VInvalid ->
  fst (compare o (FV VNull u) (FV w u')) = -1.
Proof. intros o u w u' H1 H2 H3. destruct u, u', w; try contradiction; reflexivity. Qed.

Lemma small_compare : forall o z z' f g, safe z -> safe z' -> (f = Z2f z \/ z = 0 /\ f = S754_zero true) -> (g = Z2f z' \/ z' = 0 /\ g = S754_zero true) ->
  compare o (FV (VInt z) false) (FV (VInt z') false) = (if fltb f g then -1 else if fltb g f then 1 else 0, true).
Proof.
  intros o z z' f g Sz Sz' Hf Hg. transitivity (cmpZ z z', true); [reflexivity|]. f_equal.
  assert (SFcompare f g = SFcompare (Z2f z) (Z2f z') /\ SFcompare g f = SFcompare (Z2f z') (Z2f z)) as [E1 E2].
  { destruct Hf as [->|[-> ->]], Hg as [->|[-> ->]]; auto; change (Z2f 0) with (S754_zero false);
      split; repeat match goal with |- context [Z2f ?a] => destruct (Z2f a) end; reflexivity. }
  unfold fltb, SFltb. rewrite E1, E2, !Z2f_compare by auto. unfold cmpZ, Z.ltb. destruct (Z.compare_spec z z'), (Z.compare_spec z' z); auto; lia.
Qed.
Definition eqOnly (k : cmpk) : Prop := k = CEq \/ k = CNe.
Lemma values_agree : forall o k a b sa sb x y c, parsesIntegers o -> opWf a -> opWf b -> comparable o k a b ->
  opDec o a sa -> opDec o b sb -> opFast o a = Ok x -> opFast o b = Ok y -> compareVals sa sb = Ok c ->
  agree (eqOnly k) (compare o x y) c.
Proof.
  intros o k a b sa sb x y c HP Wa Wb (HN & HT & Na & Nb) Da Db Fa Fb HC.
  destruct sa as [[|ba|fa|s|la|ma]|]; cbn [compareVals] in HC; try discriminate HC.
  - (* nil *) destruct (op_null o a x Da Fa) as (u & ->). destruct (op_any o b sb y Db Fb Nb) as [[M V] HNull].
    destruct y as [w u']. cbn [fv] in *. destruct sb as [[|bb|fb|t|lb|mb]|];
      try (injection HC as <-; assert (w <> VNull) as W by (intro W; specialize (HNull W); discriminate HNull);
           unfold agree; rewrite compare_null by auto; repeat split; try discriminate; now right).
    injection HC as <-. destruct (op_null o b _ Db Fb) as (u2 & E). injection E as -> ->. destruct u, u2; apply agree_same.
  - (* bool *) destruct sb as [[|bb|fb|t|lb|mb]|]; try discriminate HC. destruct (op_bool o a _ x Da Fa) as (u & ->). destruct (op_bool o b _ y Db Fb) as (u' & ->).
    injection HC as <-. destruct ba, bb, u, u'; apply agree_same.
  - (* number *) destruct sb as [[|bb|fb|t|lb|mb]|]; try discriminate HC. injection HC as <-.
    assert (forall a f, opDec o a (SV (JNum f)) -> number o a f) as NUM.
    { clear. intros [g|v] f HD; cbn in HD.
      - destruct g; try discriminate HD. injection HD as <-. now left.
      - destruct HD as (j & HD & E). injection E as <-. inversion HD as [| | |t y f' Hk Hf| | |]; subst. right. eauto 6. }
    destruct (HN fa fb (NUM _ _ Da) (NUM _ _ Db)) as (Sa & Sb & NNa & NNb & HC).
    destruct (op_num o a fa x HP Wa Da Fa Sa) as [_ Xa]. destruct (op_num o b fb y HP Wb Db Fb Sb) as [_ Xb].
    assert (forall f z, (f = Z2f z \/ z = 0 /\ f = S754_zero true) -> forall g, cmpF (Z2f z) g = cmpF f g /\ cmpF g (Z2f z) = cmpF g f) as EZ.
    { intros f z [->|[-> ->]] g; auto. split; [apply cmpF_zero|apply cmpF_zero_r]. }
    assert (forall f z, (f = Z2f z \/ z = 0 /\ f = S754_zero true) -> safe z -> isNaN f = false -> isNaN (Z2f z) = false) as NZ by (intros f z [->|[-> ->]]; auto).
    assert (isNaN fa = false /\ isNaN fb = false) as [Ia Ib] by (split; [destruct fa|destruct fb]; auto; contradiction).
    destruct Xa as [[Wa' (u & ->)]|(z & Wa' & Sz & -> & Ez)], Xb as [[Wb' (u' & ->)]|(z' & Wb' & Sz' & -> & Ez')].
    + unfold plain. rewrite compare_floats by auto. cbn [asFloat fst]. rewrite Ia, Ib. destruct HC as [[HC _]|HC]; [contradiction|]. rewrite cmpF_clear by auto. apply agree_same.
    + unfold plain. rewrite compare_floats by auto. cbn [asFloat fst]. rewrite Ia, (NZ fb z') by auto. destruct HC as [[HC _]|HC]; [contradiction|].
      rewrite (proj2 (EZ fb z' Ez' fa)), cmpF_clear by auto. apply agree_same.
    + unfold plain. rewrite compare_floats by auto. cbn [asFloat fst]. rewrite Ib, (NZ fa z) by auto. destruct HC as [[_ HC]|HC]; [contradiction|].
      rewrite (proj1 (EZ fa z Ez fb)), cmpF_clear by auto. apply agree_same.
    + unfold plain in *. rewrite (small_compare o z z' fa fb) by auto. apply agree_same.
  - (* string *) destruct sb as [[|bb|fb|t|lb|mb]|]; try discriminate HC. injection HC as <-.
    destruct (op_str o a s x Da Fa) as [Ta Xa]. destruct (op_str o b t y Db Fb) as [Tb Xb]. destruct (HT s t Ta Tb) as (As & At & HK).
    rewrite (compare_strings o x y s t Xa Xb). unfold agree. cbn [fst snd]. rewrite !cmpBytes_eq. split; [|split; [auto|]].
    + split; [apply quote_inj; auto|now intros ->].
    + unfold eqOnly. destruct HK as [HK|[HK|[Ps Pt]]]; auto. right. now rewrite !quote_print.
Qed.

(** ** Documents *)
Open Scope nat_scope.
Lemma mget_in : forall m k v, NoDup (map fst m) -> In (k, v) m -> mget k m = v.
Proof.
  induction m as [|[k' v'] m IH]; intros k v HN HI; [destruct HI|]. cbn [mget map fst] in *. inversion HN as [|? ? Hni HN']; subst.
  destruct (bytes_eqb k k') eqn:E.
  - apply bytes_eqb_eq in E as ->. destruct HI as [HI|HI]; [now injection HI|]. exfalso. apply Hni. apply (in_map fst) in HI. exact HI.
  - destruct HI as [HI|HI]; [injection HI as -> ->; rewrite (proj2 (bytes_eqb_eq k k) eq_refl) in E; discriminate|]. auto.
Qed.
Lemma decodes_at : forall o q v j w j', distinct v -> decodes o v j -> at_ q v = Some w -> walk j q = Ok j' -> decodes o w j' /\ distinct w.
Proof.
  induction q as [|k q IH]; intros v j w j' HDi HD HA HW.
  - cbn in HA, HW. injection HA as <-. injection HW as <-. auto.
  - cbn [at_ walk] in *. destruct j as [| | | | |m']; try discriminate HW.
    inversion HD as [| | | | | |ms wc m mp HF HP]; subst. apply distinct_obj in HDi as [HND HDs].
    destruct (findItem k (items (CObj ms wc))) as [u|] eqn:E; [|discriminate HA]. apply PTrace.find_some in E. cbn [items] in E.
    apply in_map_iff in E as (x & E & Hx). injection E as Ek <-. rewrite Forall_forall in HDs.
    assert (map (fun m => keyOf (m_kt m) (m_kx m)) ms = map Ok (map fst m)) as EK.
    { clear -HF. induction HF as [|x p ms m [Hn _] HF IHF]; auto. cbn. rewrite IHF. now rewrite (name_key _ _ _ Hn). }
    assert (NoDup (map fst m')) as ND.
    { eapply Permutation_NoDup; [apply Permutation_map, HP|]. rewrite EK in HND. eapply NoDup_map_inv. exact HND. }
    assert (exists p, In p m /\ nameIs (m_kt x) (m_kx x) (fst p) /\ decodes o (m_v x) (snd p)) as (p & Hp & Hn & Hd).
    { clear -HF Hx. induction HF as [|x' p ms m H HF IHF]; [destruct Hx|]. destruct Hx as [->|Hx]; [exists p; split; [now left|exact H]|].
      destruct (IHF Hx) as (p' & A & B). exists p'. split; [now right|exact B]. }
    rewrite (name_key _ _ _ Hn) in Ek. injection Ek as Ek. rewrite (mget_in m' k (snd p)) in HW; auto.
    2:{ rewrite <- Ek, <- surjective_pairing. eapply Permutation_in; eauto. }
    eapply IH; [apply HDs, Hx|exact Hd|exact HA|exact HW].
Qed.

(** ** The traversal *)
Lemma vget_set : forall r v vs, vget r (vset r v vs) = v.
Proof. intros. cbn. now rewrite Nat.eqb_refl. Qed.
Lemma vget_del : forall r r' vs, r <> r' -> vget r (vdel r' vs) = vget r vs.
Proof.
  intros r r' vs H. induction vs as [|[k v] vs IH]; auto. cbn [vdel filter fst vget]. fold (vdel r' vs).
  destruct (Nat.eqb_spec k r') as [->|]; cbn [negb].
  - rewrite IH. destruct (Nat.eqb_spec r r'); [contradiction|reflexivity].
  - cbn [vget]. now rewrite IH.
Qed.
Lemma vget_other : forall r r' v vs, r <> r' -> vget r (vset r' v vs) = vget r vs.
Proof. intros r r' v vs H. unfold vset. cbn [vget]. destruct (Nat.eqb_spec r r'); [contradiction|now apply vget_del]. Qed.

Fixpoint slowOr (vs : svars) (l : list expr) : sres :=
  match l with
  | [] => (vs, Ok false)
  | x :: r => let '(vs', res) := matchOne vs x in match res with Ok false => slowOr vs' r | res => (vs', res) end
  end.
Fixpoint slowAnd (vs : svars) (l : list expr) : sres :=
  match l with
  | [] => (vs, Ok true)
  | x :: r => let '(vs', res) := matchOne vs x in match res with Ok true => slowAnd vs' r | res => (vs', res) end
  end.
Lemma one_or : forall l vs, matchOne vs (XOr l) = slowOr vs l.
Proof. reflexivity. Qed.
Lemma one_and : forall l vs, l <> [] -> matchOne vs (XAnd l) = slowAnd vs l.
Proof. intros [|x l] vs H; [contradiction|reflexivity]. Qed.

Fixpoint agreeableL (o : oracles) (doc cur : cst) (l : list expr) : Prop :=
  match l with [] => True | x :: r => agreeable o doc cur x /\ agreeableL o doc cur r end.
Fixpoint unshadowedL (vs : list nat) (l : list expr) : Prop :=
  match l with [] => True | x :: r => unshadowed vs x /\ unshadowedL vs r end.
Lemma agreeable_and : forall o doc cur l, agreeable o doc cur (XAnd l) <-> agreeableL o doc cur l.
Proof. intros o doc cur l. cbn [agreeable]. induction l; cbn; tauto. Qed.
Lemma agreeable_or : forall o doc cur l, agreeable o doc cur (XOr l) <-> agreeableL o doc cur l.
Proof. intros o doc cur l. cbn [agreeable]. induction l; cbn; tauto. Qed.
Lemma unshadowed_and : forall vs l, unshadowed vs (XAnd l) <-> unshadowedL vs l.
Proof. intros vs l. cbn [unshadowed]. induction l; cbn; tauto. Qed.
Lemma unshadowed_or : forall vs l, unshadowed vs (XOr l) <-> unshadowedL vs l.
Proof. intros vs l. cbn [unshadowed]. induction l; cbn; tauto. Qed.

Section Main.
  Variable o : oracles.
  Hypothesis HP : parsesIntegers o.
  Variables (doc : cst) (jdoc : jv).
  Hypothesis HWd : wf_cst doc.
  Hypothesis HDd : distinct doc.
  Hypothesis HDec : decodes o doc jdoc.

  (** The variables hold the document and the current element. *)
  Definition holds (cv : nat) (cur : cst) (vs : svars) : Prop :=
    vget 0 vs = jdoc /\ wf_cst cur /\ distinct cur /\ (exists j, decodes o cur j /\ vget cv vs = j) /\ (cv = 0 -> cur = doc).
  Definition keeps (used : list nat) (vs vs' : svars) : Prop := forall u, In u used -> vget u vs' = vget u vs.
  Lemma holds_keep : forall cv cur used vs vs', In 0 used -> In cv used -> keeps used vs vs' -> holds cv cur vs -> holds cv cur vs'.
  Proof.
    intros cv cur used vs vs' H0 Hc HK (A & B & C & (j & D & E) & F). split; [rewrite HK; auto|]. split; auto. split; auto. split; auto.
    exists j. split; auto. rewrite HK; auto.
  Qed.

  Lemma walk_total : forall q j j', walk j q = Ok j' -> forall q1 k q2, q = q1 ++ k :: q2 -> exists m, walk j q1 = Ok (JObj m).
  Proof.
    induction q as [|k' q IH]; intros j j' H q1 k q2 E; [destruct q1; discriminate E|]. cbn in H. destruct j; try discriminate H.
    destruct q1 as [|a q1]; cbn in E; [injection E as -> ->; cbn; eauto|]. injection E as <- ->. cbn [walk]. eapply IH; eauto.
  Qed.

  Lemma field_dec : forall cv cur vs r q w s, holds cv cur vs -> r = 0 \/ r = cv -> fieldAt doc cur r q = Some w ->
    resolveParam vs (XField r q) = Ok s -> exists j, s = SV j /\ decodes o w j /\ distinct w /\ wf_cst w.
  Proof.
    intros cv cur vs r q w s (H0 & HW & HDi & (jc & Hc & Hv) & Hz) Hr HF HS. cbn [resolveParam] in HS.
    destruct (walk (vget r vs) q) as [j| | |] eqn:Ew; cbn [obind] in HS; try discriminate HS. injection HS as <-. exists j. split; auto.
    assert (forall v q w, wf_cst v -> at_ q v = Some w -> wf_cst w) as WF.
    { clear. intros v q. revert v. induction q as [|k q IH]; intros v w HW HA; cbn [at_] in HA; [now injection HA as <-|].
      destruct (findItem k (items v)) as [u|] eqn:E; [|discriminate HA]. apply PTrace.find_some in E. apply (IH u); auto.
      destruct v as [t x|es wc|ms wc]; cbn [items] in E; [destruct E| |].
      - apply arr_nth in E as (i & e & E & _ & ->). apply wf_arr in HW as [_ HW]. rewrite Forall_forall in HW. apply nth_error_In, HW in E. apply E.
      - apply in_map_iff in E as (m & E & Hm). injection E as _ <-. apply wf_obj in HW as [_ HW]. rewrite Forall_forall in HW. apply HW in Hm. unfold wf_mem in Hm. tauto. }
    unfold fieldAt in HF. destruct (Nat.eqb_spec r 0) as [->|Hn].
    - rewrite H0 in Ew. destruct (decodes_at o q doc jdoc w j HDd HDec HF Ew). eauto.
    - destruct Hr as [Hr | ->]; [contradiction|]. rewrite Hv in Ew. destruct (decodes_at o q cur jc w j HDi Hc HF Ew). eauto.
  Qed.

  Lemma op_read : forall cv cur vs e a s, holds cv cur vs -> operandOk o cv e -> readOp doc cur e = Some a -> resolveParam vs e = Ok s ->
    opDec o a s /\ opWf a /\ oval o doc cur e = opFast o a /\ (exists x, opFast o a = Ok x) /\ allPresent doc cur e = true.
  Proof.
    intros cv cur vs e a s HH HO HR HS. destruct e; try discriminate HR.
    - injection HR as <-. injection HS as <-. split; [reflexivity|]. split; [exact I|]. split; [reflexivity|]. split; [cbn; eauto|reflexivity].
    - cbn [readOp] in HR. destruct (fieldAt doc cur root path) as [w|] eqn:EF; [|discriminate HR]. injection HR as <-.
      destruct (field_dec cv cur vs root path w s HH HO EF HS) as (j & -> & Hd & _ & Hw).
      split; [cbn; eauto|]. split; [exact Hw|]. split; [cbn [oval opFast]; now rewrite EF|]. split.
      + cbn [opFast]. destruct w as [t x|es wc|ms wc]; cbn [valOf]; eauto. apply lit_total. apply Hw.
      + unfold allPresent. cbn [frefs forallb]. unfold present. cbn [fst snd]. now rewrite EF.
  Qed.
  Lemma truth_cmp : forall cur k l r, truth o doc cur (XCmp k l r) = match k with CNe => negb (cmpTruth o doc cur CEq l r) | _ => cmpTruth o doc cur k l r end.
  Proof. intros cur [] l r; reflexivity. Qed.

  Theorem slow_truth : forall e cv cur used vs vs' b, compilable o cv e -> unshadowed used e -> agreeable o doc cur e ->
    In 0 used -> In cv used -> holds cv cur vs -> matchOne vs e = (vs', Ok b) ->
    truth o doc cur e = b /\ keeps used vs vs'.
  Proof.
    induction e as [| |g|sa|sa|sa|a IH|l IH|l IH|r p|n l IH|m v i s IHi IHs|a IH|a IH|k l r IHl IHr] using expr_ind';
      intros cv cur used vs vs' b HC HU HA U0 Uc HH HM; try (discriminate HM).
    - apply compilable_and in HC as [Hne HC]. apply unshadowed_and in HU. apply agreeable_and in HA. rewrite one_and in HM by auto. clear Hne.
      revert vs HH HM. induction l as [|x l IHl]; intros vs HH HM.
      + injection HM as <- <-. split; [reflexivity|]. intros u _. reflexivity.
      + inversion IH as [|? ? IHx IH']; subst. cbn [slowAnd allC unshadowedL agreeableL] in *. destruct HC as [HCx HC], HU as [HUx HU], HA as [HAx HA].
        destruct (matchOne vs x) as [v1 res] eqn:E. destruct res as [[]| | |]; try discriminate HM.
        * destruct (IHx cv cur used vs v1 true) as [T K]; auto. destruct (IHl IH' HC HU HA v1) as [T' K'].
          { eapply holds_keep; eauto. } { exact HM. }
          split; [cbn [truth forallb]; rewrite T; exact T'|]. intros u Hu. rewrite K', K; auto.
        * injection HM as <- <-. destruct (IHx cv cur used vs v1 false) as [T K]; auto. split; [cbn [truth forallb]; now rewrite T|exact K].
    - apply compilable_or in HC as [Hne HC]. apply unshadowed_or in HU. apply agreeable_or in HA. rewrite one_or in HM. clear Hne.
      revert vs HH HM. induction l as [|x l IHl]; intros vs HH HM.
      + injection HM as <- <-. split; [reflexivity|]. intros u _. reflexivity.
      + inversion IH as [|? ? IHx IH']; subst. cbn [slowOr allC unshadowedL agreeableL] in *. destruct HC as [HCx HC], HU as [HUx HU], HA as [HAx HA].
        destruct (matchOne vs x) as [v1 res] eqn:E. destruct res as [[]| | |]; try discriminate HM.
        * injection HM as <- <-. destruct (IHx cv cur used vs v1 true) as [T K]; auto. split; [cbn [truth existsb]; now rewrite T|exact K].
        * destruct (IHx cv cur used vs v1 false) as [T K]; auto. destruct (IHl IH' HC HU HA v1) as [T' K'].
          { eapply holds_keep; eauto. } { exact HM. }
          split; [cbn [truth existsb]; rewrite T; exact T'|]. intros u Hu. rewrite K', K; auto.
    - destruct HC as (Hv & (q & -> & _) & HC). destruct HU as [HUv HU]. cbn [agreeable] in HA. destruct HA as (es & w & HF & HA).
      destruct m; cbn [matchOne] in HM; try discriminate HM. destruct (resolveParam vs (XField cv q)) as [sv| | |] eqn:ER; try discriminate HM.
      destruct (field_dec cv cur vs cv q (CArr es w) sv HH (or_intror eq_refl) HF ER) as (j & -> & Hd & HDi & HW).
      inversion Hd as [| | | | |es' w' jl HF2|]; subst.
      assert (truth o doc cur (XLoop LAny v (XField cv q) s) = existsb (fun e => truth o doc (e_v e) s) es) as ET.
      { cbn [truth]. rewrite HF. unfold quant. clear. induction es as [|x es IH]; auto. cbn [map existsb]. now rewrite IH. }
      rewrite ET. clear ET. apply distinct_arr in HDi. apply wf_arr in HW as [_ HW].
      assert (holds cv cur vs) as HH' by exact HH. clear ER HF Hd. revert vs HH HH' HM. induction HF2 as [|x jx es jl Hx HF2 IHF]; intros vs HH HH' HM.
      + cbn [anyLoop] in HM. injection HM as <- <-. split; [reflexivity|]. intros u _. reflexivity.
      + cbn [anyLoop] in HM. destruct (matchOne (vset v jx vs) s) as [v1 res] eqn:E.
        inversion HDi as [|? ? HDx HDi']; subst. inversion HW as [|? ? HWx HW']; subst.
        assert (forall bb, res = Ok bb -> truth o doc (e_v x) s = bb /\ keeps used vs (vdel v v1)) as STEP.
        { intros bb ->. destruct (IHs v (e_v x) (v :: used) (vset v jx vs) v1 bb) as [T K]; auto.
          - apply HA. now left.
          - now right.
          - now left.
          - destruct HH as (H0 & _). split; [rewrite vget_other; auto|]. split; [apply HWx|]. split; auto. split; [exists jx; split; auto; apply vget_set|]. intro. contradiction.
          - split; auto. intros u Hu. assert (u <> v) by (intros ->; contradiction). rewrite vget_del by auto. rewrite K by now right. now apply vget_other. }
        destruct res as [[]| | |]; try discriminate HM.
        * injection HM as <- <-. destruct (STEP true eq_refl) as [T K]. split; [cbn [existsb]; now rewrite T|exact K].
        * destruct (STEP false eq_refl) as [T K]. destruct (IHF) with (vs := vdel v v1) as [T' K']; auto.
          { intros e He. apply HA. now right. } { eapply holds_keep; eauto. } { eapply holds_keep; eauto. }
          split; [cbn [existsb]; rewrite T; exact T'|]. intros u Hu. rewrite K', K; auto.
    - destruct HC as (HOl & HOr & _). destruct HA as (a & b' & Ra & Rb & HCmp). cbn [matchOne] in HM.
      assert (vs' = vs /\ slowCmp vs k l r = Ok b) as [-> HM'] by (injection HM; auto). split; [|intros u _; reflexivity]. clear HM.
      assert (exists c, compareExprs vs l r = Ok c /\ k <> CLike) as (c & EC & Hk).
      { unfold slowCmp in HM'. destruct (compareExprs vs l r) as [c| | |]; destruct k; try discriminate HM'; exists c; split; auto; discriminate. }
      unfold slowCmp in HM'. rewrite EC in HM'. unfold compareExprs in EC.
      destruct (resolveParam vs l) as [sx| | |] eqn:El; try discriminate EC. destruct (resolveParam vs r) as [sy| | |] eqn:Er; try discriminate EC. cbn [obind] in EC.
      destruct (op_read cv cur vs l a sx HH HOl Ra El) as (Dx & Wx & Vx & (x & Fx) & Px).
      destruct (op_read cv cur vs r b' sy HH HOr Rb Er) as (Dy & Wy & Vy & (y & Fy) & Py).
      pose proof (values_agree o k a b' sx sy x y c HP Wx Wy HCmp Dx Dy Fx Fy EC) as (A1 & A2 & A3).
      assert (forall k', cmpTruth o doc cur k' l r = cmpHolds o k' x y) as CT.
      { intro k'. unfold cmpTruth. now rewrite Px, Py, Vx, Vy, Fx, Fy. }
      rewrite truth_cmp, !CT. unfold cmpHolds, equals. destruct (compare o x y) as [rr ok]. cbn [fst snd] in *.
      assert ((ok && (rr =? 0)%Z) = (c =? 0)%Z) as EQ.
      { destruct (Z.eqb_spec c 0) as [E|E]; [rewrite (A2 E), (proj2 A1 E); reflexivity|]. destruct (Z.eqb_spec rr 0) as [E'|E']; [tauto|apply andb_false_r]. }
      unfold eqOnly in A3. cbn [fst]. destruct k; try contradiction; injection HM' as <-; rewrite ?EQ; try reflexivity;
        (destruct A3 as [[A3|A3]|A3]; [discriminate A3|discriminate A3|]); destruct rr, c; cbn in A3 |- *; try discriminate A3; reflexivity.
  Qed.
End Main.
