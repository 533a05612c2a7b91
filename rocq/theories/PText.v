(** Proofs: translation of text filters. *)
From Coq Require Import String.
From Verif Require Import Base MTokenizer SJson MLit MFastVal MMath SEvents MExpr MExprJson MTransform MMatcher SFilter MTree SDoc SSat SSem PFloat PCheck PSem TMatch MText SText.
From Coq Require Import List NArith ZArith Arith Lia Bool.
From Coq Require Import Floats.SpecFloat.
Import ListNotations.
Open Scope Z_scope.

(** ** Negating a float *)
Lemma m1 : Z2f (-1) = S754_finite true 4503599627370496 (-52).
Proof. reflexivity. Qed.
Lemma shr1_even : forall m, shr_1 {| shr_m := Zpos (xO m); shr_r := false; shr_s := false |} = {| shr_m := Zpos m; shr_r := false; shr_s := false |}.
Proof. reflexivity. Qed.
Lemma shr_shift : forall m, iter_pos shr_1 52 {| shr_m := Zpos (shift_pos 52 m); shr_r := false; shr_s := false |} = {| shr_m := Zpos m; shr_r := false; shr_s := false |}.
Proof. intro m. reflexivity. Qed.
Lemma fmul_m1 : forall f, valid_binary 53 1024 f = true -> fmul f (Z2f (-1)) = SFopp f.
Proof.
  intros [s|s| |s m e] HV; rewrite m1; try (destruct s; reflexivity); try reflexivity.
  unfold fmul, SFmul. cbn [SFopp].
  cbn [valid_binary] in HV. unfold bounded in HV. apply andb_true_iff in HV as [HC HE]. unfold canonical_mantissa in HC. apply Zeq_bool_eq in HC. apply Z.leb_le in HE.
  replace (m * 4503599627370496)%positive with (shift_pos 52 m) by (apply Pos2Z.inj; rewrite shift_value; cbn; lia).
  rewrite xorb_true_r.
  unfold binary_round_aux, shr_fexp.
  assert (fexp 53 1024 (Zdigits2 (Zpos (shift_pos 52 m)) + (e + -52)) - (e + -52) = 52) as ->.
  { unfold Zdigits2. rewrite digits_shift. replace (Zpos (digits2_pos m) + 52 + (e + -52)) with (Zpos (digits2_pos m) + e) by lia. rewrite HC. lia. }
  assert (shr (shr_record_of_loc (Zpos (shift_pos 52 m)) loc_Exact) (e + -52) 52 = ({| shr_m := Zpos m; shr_r := false; shr_s := false |}, e + -52 + 52)) as ->.
  { reflexivity. }
  cbn [shr_m loc_of_shr_record round_nearest_even].
  replace (e + -52 + 52) with e by lia. unfold Zdigits2. rewrite HC, Z.sub_diag. unfold shr. cbn [shr_record_of_loc shr_m].
  replace (e <=? 1024 - 53) with true; [reflexivity|]. symmetry. apply Z.leb_le. lia.
Qed.
Open Scope nat_scope.

(** ** The translations, without trees *)
Definition negx (neg : bool) (e : expr) : expr := if neg then XFunc (s2b "mathNegate") [e] else e.
Definition xField (f : field) : expr := negx (fl_neg f) (XField 0 (fieldPath f)).
Definition aopName (p : aop) : bytes :=
  s2b match p with Plus => "mathAdd" | Minus => "mathSubract" | Times => "mathMultiply" | Over => "mathDivide" | Modulo => "mathModulo" end.
Definition xFmath (m : fmath) : expr :=
  match m with
  | FPlain f => xField f
  | FNumL n p f => XFunc (aopName p) [XValue (numVal n); xField f]
  | FNumR f p n => XFunc (aopName p) [xField f; XValue (numVal n)]
  | FTwo f p g => XFunc (aopName p) [xField f; xField g]
  end.
Definition name1 (f : fname1) : bytes :=
  s2b match f with
      | NAbs => "mathAbs" | NAcos => "mathAcos" | NAsin => "mathAsin" | NAtan => "mathAtan" | NCeil => "mathCeil" | NCos => "mathCos"
      | NDate => "date" | NDegrees => "mathDegrees" | NExp => "mathExp" | NFloor => "mathFloor" | NLog => "mathLog" | NLn => "mathLn"
      | NSin => "mathSin" | NTan => "mathTan" | NRadians => "mathRadians" | NRound => "mathRound" | NSqrt => "mathSqrt"
      end.
Fixpoint xCall (c : call) : expr :=
  match c with
  | CPi neg => negx neg (XValue (GFloat fpi))
  | CE neg => negx neg (XValue (GFloat fe))
  | COne neg f a => negx neg (XFunc (name1 f) [xArg a])
  | CAtan2 neg a b => negx neg (XFunc (s2b "mathAtan2") [xArg a; xArg b])
  | CPow neg a b => negx neg (XFunc (s2b "mathPow") [xArg a; xArg b])
  end
with xArg (a : arg) : expr := match a with ACall c => xCall c | AField m => xFmath m | AValue v => XValue (valueVal v) end.
Definition xSide (s : side) : expr :=
  match s with SCall c => xCall c | SBool _ b => XValue (GBool b) | SField m => xFmath m | SValue v => XValue (valueVal v) end.
Definition cmpOf (p : cop) : cmpk := match p with OEq _ => CEq | ONe _ => CNe | OLt => CLt | OLe => CLe | OGt => CGt | OGe => CGe end.
Definition xBasic (x : textEnv) (b : tbasic) : expr :=
  match b with
  | BConst _ c => if c then XTrue else XFalse
  | BRegex a p => XCmp CLike (xArg a) (pattern x p)
  | BRegexCall _ _ => XFalse
  | BExists f => XExists (xField f)
  | BCmp l p r => XCmp (cmpOf p) (xSide l) (xSide r)
  | BNull neg l => let e := XCmp CEq (xSide l) (XValue GNil) in if neg then XNot e else e
  | BMissing neg l => if neg then XExists (xSide l) else XNotExists (xSide l)
  end.
Fixpoint xCond (x : textEnv) (c : cond) : expr := match c with CNot d => XNot (xCond x d) | CBasic b => xBasic x b end.
Fixpoint xFilter (x : textEnv) (f : tfilter) : expr := match f with FOr a l => XOr (xConj x a :: map (xConj x) l) end
with xConj (x : textEnv) (c : tconj) : expr := match c with FAnd a l => XAnd (xTerm x a :: map (xTerm x) l) end
with xTerm (x : textEnv) (t : tterm) : expr := match t with TParen f => xFilter x f | TCond c => xCond x c end.

Scheme call_mind := Induction for call Sort Prop with arg_mind := Induction for arg Sort Prop.
Combined Scheme call_arg_ind from call_mind, arg_mind.

Section FilterInd.
  Variable P : tfilter -> Prop.
  Variable Q : tconj -> Prop.
  Variable R : tterm -> Prop.
  Hypothesis HO : forall a l, Q a -> Forall Q l -> P (FOr a l).
  Hypothesis HA : forall a l, R a -> Forall R l -> Q (FAnd a l).
  Hypothesis HP : forall f, P f -> R (TParen f).
  Hypothesis HC : forall c, R (TCond c).
  Fixpoint filter_ind' (f : tfilter) : P f :=
    match f with FOr a l => HO a l (conj_ind' a) ((fix go l : Forall Q l := match l with [] => Forall_nil _ | c :: r => Forall_cons c (conj_ind' c) (go r) end) l) end
  with conj_ind' (c : tconj) : Q c :=
    match c with FAnd a l => HA a l (term_ind' a) ((fix go l : Forall R l := match l with [] => Forall_nil _ | t :: r => Forall_cons t (term_ind' t) (go r) end) l) end
  with term_ind' (t : tterm) : R t := match t with TParen f => HP f (filter_ind' f) | TCond c => HC c end.
End FilterInd.

(** ** PCRE patterns *)
Lemma closes_iff : forall l seen, closes seen l = true <-> exists m b, l = (m ++ [41]%N ++ b)%list /\ (seen = true \/ m <> []) /\ ~ In 10%N m.
Proof.
  induction l as [|c r IH]; intro seen.
  - cbn. split; [discriminate|]. intros (m & b & E & _). destruct m; discriminate E.
  - cbn [closes]. destruct (N.eqb c 41 && seen) eqn:E.
    + apply andb_true_iff in E as [E ->]. apply N.eqb_eq in E. subst c. split; auto. intros _. exists [], r. cbn. auto.
    + destruct (N.eqb c 10) eqn:E10.
      * split; [discriminate|]. apply N.eqb_eq in E10. subst c. intros ([|y m] & b & El & Hs & Hn); [discriminate El|]. injection El as <- El. exfalso. apply Hn. now left.
      * rewrite IH. split.
        -- intros (m & b & -> & _ & Hn). exists (c :: m), b. split; [reflexivity|]. split; [right; discriminate|]. intros [->|H]; [discriminate E10|now apply Hn].
        -- intros ([|y m] & b & El & Hs & Hn).
           ++ injection El as -> ->. destruct Hs as [-> |H]; [discriminate E|contradiction].
           ++ injection El as <- El. exists m, b. split; auto. split; auto. intro H. apply Hn. now right.
Qed.
Lemma pcre_iff : forall s, tokenIsPcre s = true <-> lookaround s.
Proof.
  induction s as [|c r IH].
  - cbn. split; [discriminate|]. intros (a & d & m & b & E & _). destruct a; discriminate E.
  - assert (lookaround (c :: r) <-> lookaround r \/ exists d t, c = 40%N /\ r = 63%N :: d :: t /\ (d = 61 \/ d = 60 \/ d = 33)%N /\ closes false t = true) as X.
    { split.
      - intros ([|y a] & d & m & b & E & Hd & Hm & Hn).
        + right. cbn in E. injection E as -> ->. exists d, (m ++ [41]%N ++ b)%list. repeat split; auto. apply closes_iff. exists m, b. auto.
        + left. injection E as <- ->. exists a, d, m, b. auto.
      - intros [(a & d & m & b & -> & H)|(d & t & -> & -> & Hd & HC)].
        + exists (c :: a), d, m, b. auto.
        + apply closes_iff in HC as (m & b & -> & [H|H] & Hn); [discriminate H|]. exists [], d, m, b. auto. }
    rewrite X, <- IH. clear X IH.
    assert (tokenIsPcre (c :: r) = match r with q :: d :: t => N.eqb c 40 && N.eqb q 63 && (N.eqb d 61 || N.eqb d 60 || N.eqb d 33) && closes false t | _ => false end || tokenIsPcre r) as -> by reflexivity.
    rewrite orb_true_iff. destruct r as [|q [|d t]].
    1, 2: split; [intros [H|H]; [discriminate H|auto]|intros [H|(d' & t' & _ & E & _)]; [auto|discriminate E]].
    rewrite !andb_true_iff, !orb_true_iff, !N.eqb_eq. split.
    + intros [[[[-> ->] Hd] HC]|H]; auto. right. exists d, t. tauto.
    + intros [H|(d' & t' & -> & E & Hd & HC)]; auto. injection E as -> <- <-. tauto.
Qed.

(** ** The tree translates to that *)
Lemma wrap_neg : forall z, (0 <= z < 2 ^ 63)%Z -> wrap64 (z * -1) = (- z)%Z.
Proof. intros z H. rewrite <- (Z.opp_eq_mul_m1 z). unfold wrap64. change (2 ^ 64)%Z with (2 * 2 ^ 63)%Z. change (2 ^ 63)%Z with 9223372036854775808%Z in *. Z.div_mod_to_equations. lia. Qed.
Lemma out_num : forall n, numOk n -> outMathValue (tNum n) = Ok (numVal n).
Proof.
  intros [neg z|neg f] H; destruct neg; cbn [tNum outMathValue mv_int mv_float mv_neg flag isTrue numVal]; auto.
  - cbn in H. now rewrite wrap_neg.
  - cbn in H. now rewrite fmul_m1.
Qed.
Lemma out_value : forall v, valueOk v -> outValue (tValue v) = Ok (XValue (valueVal v)).
Proof. intros [n|s] H; cbn [tValue outValue v_str v_math valueVal]; auto. now rewrite out_num. Qed.
Lemma str_value : forall x v, valueOk v -> strValue x (tValue v) = valueText x v.
Proof.
  intros x [n|s] H; cbn [tValue strValue v_str v_math valueText]; auto. unfold strMathValue. rewrite out_num by exact H. destruct n; reflexivity.
Qed.
Lemma out_seg : forall s, outOnePath (tSeg s) = Ok (segPath s).
Proof. intros [[b|b|b|] i]; try reflexivity; unfold outOnePath, tSeg, segPath; cbn; unfold strStringType; cbn; destruct b; reflexivity. Qed.
Lemma out_path : forall l, outPath (map tSeg l) = Ok (flat_map segPath l).
Proof. induction l as [|s l IH]; auto. cbn [map outPath flat_map]. rewrite out_seg. cbn [obind]. rewrite IH. reflexivity. Qed.
Lemma out_field : forall f, outField (tField f) = Ok (xField f).
Proof. intros [neg a l]. unfold outField, tField, f_path. rewrite out_path. cbn [obind]. destruct neg; reflexivity. Qed.
Lemma out_aop : forall p, outMathOp (tAop p) = Ok (aopName p).
Proof. destruct p; reflexivity. Qed.
Lemma out_fmath : forall m, fmathOk m -> outFieldWithMath (tFmath m) = Ok (xFmath m).
Proof.
  intros [f|n p f|f p n|f p g] H; unfold outFieldWithMath, tFmath; cbn [fm_type0 fm_type1]; unfold outType0, outType1; cbn [t0_op t0_value t0_field t1_field t1_op t1_value t1_other].
  - apply out_field.
  - rewrite out_aop. cbn [obind]. rewrite out_num by exact H. cbn [obind]. rewrite out_field. reflexivity.
  - rewrite out_aop. cbn [obind]. rewrite out_field. cbn [obind]. rewrite out_num by exact H. reflexivity.
  - rewrite out_aop. cbn [obind]. rewrite out_field. cbn [obind]. rewrite out_field. reflexivity.
Qed.
Lemma out_name1 : forall f, outName1 (tName1 f) = Ok (name1 f).
Proof. destruct f; reflexivity. Qed.
Lemma date_set : forall f, isSet (tName1 f NDate) = match f with NDate => true | _ => false end.
Proof. destruct f; reflexivity. Qed.
Lemma valid_date : forall o s, validTime o s = true <-> dateOk o s.
Proof.
  intros o s. unfold validTime, dateOk. destruct (o_parseRFC3339 o s) as [z|].
  - split; eauto.
  - rewrite !orb_true_iff. split; [tauto|]. intros [[z E]|X]; [discriminate E|tauto].
Qed.

Section Out.
  Variable o : oracles.
  Variable x : textEnv.
  Lemma out_negx : forall neg e, Ok (if isTrue (flag neg) then XFunc (s2b "mathNegate") [e] else e) = Ok (negx neg e).
  Proof. now destruct neg. Qed.
  (** Unfolding equations. *)
  Lemma oc_eq : forall neg n a b, outConstFunc o x (FeConstFunc neg n a b) =
    do e <- match n with Some n => outNoArg n | None => match a with Some a => outOneArg o x a | None => match b with Some b => outTwoArgs o x b | None => Err end end end;
    Ok (if isTrue neg then XFunc (s2b "mathNegate") [e] else e).
  Proof. reflexivity. Qed.
  Lemma o1_eq : forall name a, outOneArg o x (FeOneArg (Some name) (Some a)) =
    do n <- outName1 name; do e <- outArgument o x a;
    match a with
    | FeArgument _ _ (Some v) => if isSet (name NDate) && negb (validTime o (strValue x v)) then Err else Ok (XFunc n [e])
    | _ => Ok (XFunc n [e])
    end.
  Proof. reflexivity. Qed.
  Lemma o2_eq : forall name a b, outTwoArgs o x (FeTwoArgs (Some name) (Some a) (Some b)) =
    do n <- outName2 name; do d <- outArgument o x a; do e <- outArgument o x b; Ok (XFunc n [d; e]).
  Proof. reflexivity. Qed.
  Lemma tc_one : forall neg f a, tCall (COne neg f a) = FeConstFunc (flag neg) None (Some (FeOneArg (Some (tName1 f)) (Some (tArg a)))) None.
  Proof. reflexivity. Qed.
  Lemma tc_atan2 : forall neg a b, tCall (CAtan2 neg a b) = FeConstFunc (flag neg) None None (Some (FeTwoArgs (Some {| tn_atan2 := Some true; tn_pow := None |}) (Some (tArg a)) (Some (tArg b)))).
  Proof. reflexivity. Qed.
  Lemma tc_pow : forall neg a b, tCall (CPow neg a b) = FeConstFunc (flag neg) None None (Some (FeTwoArgs (Some {| tn_atan2 := None; tn_pow := Some true |}) (Some (tArg a)) (Some (tArg b)))).
  Proof. reflexivity. Qed.
  Lemma ok_one : forall neg f a, callOk o x (COne neg f a) = (argOk o x a /\ match f, a with NDate, AValue v => dateOk o (valueText x v) | _, _ => True end).
  Proof. reflexivity. Qed.
  Lemma ok_two : forall neg a b, callOk o x (CAtan2 neg a b) = (argOk o x a /\ argOk o x b) /\ callOk o x (CPow neg a b) = (argOk o x a /\ argOk o x b).
  Proof. split; reflexivity. Qed.
  Lemma xc_one : forall neg f a, xCall (COne neg f a) = negx neg (XFunc (name1 f) [xArg a]).
  Proof. reflexivity. Qed.
  Lemma xc_two : forall neg a b, xCall (CAtan2 neg a b) = negx neg (XFunc (s2b "mathAtan2") [xArg a; xArg b]) /\ xCall (CPow neg a b) = negx neg (XFunc (s2b "mathPow") [xArg a; xArg b]).
  Proof. split; reflexivity. Qed.
  Definition outcomeIs (r : outcome expr) (e : expr) (ok : Prop) : Prop := r = Ok e /\ ok \/ r = Err /\ ~ ok.
  Lemma out_call : (forall c, callLits c -> outcomeIs (outConstFunc o x (tCall c)) (xCall c) (callOk o x c))
                /\ (forall a, argLits a -> outcomeIs (outArgument o x (tArg a)) (xArg a) (argOk o x a)).
  Proof.
    unfold outcomeIs. apply call_arg_ind.
    - intros neg _. left. split; [|exact I]. cbn [tCall outConstFunc outNoArg n_name na_pi isTrue obind xCall]. apply out_negx.
    - intros neg _. left. split; [|exact I]. cbn [tCall outConstFunc outNoArg n_name na_pi na_e isTrue obind xCall]. apply out_negx.
    - intros neg f a IH H. change (argLits a) in H. rewrite tc_one, oc_eq, o1_eq, out_name1, ok_one, xc_one. cbn [obind].
      destruct (IH H) as [[-> HO]|[-> HO]]; cbn [obind]; [|right; tauto].
      destruct a as [c|m|v].
      + left. cbn [obind tArg]. split; [apply out_negx|]. split; [exact HO|]. now destruct f.
      + left. cbn [obind tArg]. split; [apply out_negx|]. split; [exact HO|]. now destruct f.
      + cbn [tArg]. rewrite date_set, str_value by exact H. pose proof (valid_date o (valueText x v)) as VD.
        destruct f; cbn [andb obind]; try (left; split; [apply out_negx|split; [exact I|exact I]]).
        destruct (validTime o (valueText x v)) eqn:EV; cbn [negb obind].
        * left. split; [apply out_negx|]. split; [exact I|]. now apply VD.
        * right. split; [reflexivity|]. intros [_ X]. apply VD in X. discriminate X.
    - intros neg a IHa b IHb [Ha Hb]. rewrite tc_atan2, oc_eq, o2_eq, (proj1 (ok_two neg a b)), (proj1 (xc_two neg a b)). cbn [outName2 tn_atan2 isTrue obind].
      destruct (IHa Ha) as [[-> HO]|[-> HO]]; cbn [obind]; [|right; tauto]. destruct (IHb Hb) as [[-> HO2]|[-> HO2]]; cbn [obind]; [|right; tauto].
      left. split; [apply out_negx|auto].
    - intros neg a IHa b IHb [Ha Hb]. rewrite tc_pow, oc_eq, o2_eq, (proj2 (ok_two neg a b)), (proj2 (xc_two neg a b)). cbn [outName2 tn_atan2 tn_pow isTrue obind].
      destruct (IHa Ha) as [[-> HO]|[-> HO]]; cbn [obind]; [|right; tauto]. destruct (IHb Hb) as [[-> HO2]|[-> HO2]]; cbn [obind]; [|right; tauto].
      left. split; [apply out_negx|auto].
    - intros c IH H. exact (IH H).
    - intros m H. left. split; [|exact I]. exact (out_fmath m H).
    - intros v H. left. split; [|exact I]. exact (out_value v H).
  Qed.
  Lemma out_side : forall s, sideLits s -> outcomeIs (outSide o x (tSide s)) (xSide s) (sideOk o x s).
  Proof.
    intros [c|u b|m|v] H; unfold outSide, tSide; cbn [sd_func sd_bool sd_field sd_value sideOk xSide].
    - now apply out_call.
    - left. split; [|exact I]. destruct u, b; reflexivity.
    - left. split; [|exact I]. now apply out_fmath.
    - left. split; [|exact I]. now apply out_value.
  Qed.
  Lemma out_cop : forall p l r, outCompareOp (tCop p) l r = Ok (XCmp (cmpOf p) l r).
  Proof. intros [[|]|[|]| | | |] l r; reflexivity. Qed.
  Lemma out_regex : forall p, valueOk p ->
    outcomeIs (outRegex x {| ar_sub := None; ar_value := Some (tValue p) |}) (pattern x p) (lookaround (valueText x p) -> x_pcre x = true).
  Proof.
    intros p H. unfold outcomeIs, outRegex, pattern. cbn [ar_value]. rewrite str_value by exact H. pose proof (pcre_iff (valueText x p)) as PI.
    destruct (tokenIsPcre (valueText x p)).
    - destruct (x_pcre x); [left; auto|right]. split; auto. intro X. assert (false = true) by (apply X; now apply PI). discriminate.
    - left. split; auto. intro X. apply PI in X. discriminate X.
  Qed.
  Lemma out_basic : forall b, basicLits b -> outcomeIs (outOperand o x (tBasic b)) (xBasic x b) (basicOk o x b).
  Proof.
    unfold outcomeIs. intros [u c|a p|a c|f|l p r|neg l|neg l] H; cbn [basicLits] in H; unfold tBasic, regexFunc, boolFunc, boolOperand, outOperand; cbn [o_bool o_lhs o_op o_rhs o_check xBasic basicOk].
    - left. split; [|exact I]. destruct u, c; reflexivity.
    - destruct H as [Ha Hp]. unfold outBooleanExpr, outBooleanFunc, outBoolTwoArgs. cbn [be_val be_func bf_two bt_name bt_arg0 bt_arg1 bn_regex isTrue].
      destruct (proj2 out_call a Ha) as [[-> HO]|[-> HO]]; cbn [obind]; [|right; tauto].
      destruct (out_regex p Hp) as [[-> HP]|[-> HP]]; cbn [obind]; [left|right]; tauto.
    - destruct H as [Ha Hc]. right. split; [|tauto]. unfold outBooleanExpr, outBooleanFunc, outBoolTwoArgs. cbn [be_val be_func bf_two bt_name bt_arg0 bt_arg1 bn_regex isTrue].
      destruct (proj2 out_call a Ha) as [[-> HO]|[-> HO]]; cbn [obind]; reflexivity.
    - left. split; [|exact I]. unfold outBooleanExpr, outBooleanFunc, outExists. cbn [be_val be_func bf_two bf_exists ex_field]. now rewrite out_field.
    - destruct H as [Hl Hr]. destruct (out_side l Hl) as [[-> HO]|[-> HO]]; cbn [obind]; [|right; tauto].
      destruct (out_side r Hr) as [[-> HO2]|[-> HO2]]; cbn [obind]; [|right; tauto]. rewrite out_cop. left. auto.
    - destruct (out_side l H) as [[-> HO]|[-> HO]]; cbn [obind]; [|right; tauto]. left. split; auto. destruct neg; reflexivity.
    - destruct (out_side l H) as [[-> HO]|[-> HO]]; cbn [obind]; [|right; tauto]. left. split; auto. destruct neg; reflexivity.
  Qed.
  Lemma out_cond : forall c, allCond basicLits c -> outcomeIs (outCondition o x (tCond c)) (xCond x c) (allCond (basicOk o x) c).
  Proof.
    unfold outcomeIs. induction c as [c IH|b]; intro H; cbn [tCond outCondition xCond allCond] in *.
    - destruct (IH H) as [[-> HO]|[-> HO]]; cbn [obind]; [left|right]; auto.
    - now apply out_basic.
  Qed.
  Fixpoint mapO {A : Type} (f : A -> outcome expr) (l : list A) : outcome (list expr) :=
    match l with [] => Ok [] | a :: r => do e <- f a; do es <- mapO f r; Ok (e :: es) end.
  Lemma outInner_eq : forall a l, outInner o x (FeInner (a :: l)) = do es <- mapO (outInnerAnd o x) (a :: l); Ok (XOr es).
  Proof.
    intros a l. change (outInner o x (FeInner (a :: l))) with (do es <- (fix go l := match l with [] => Ok [] | a :: r => do e <- outInnerAnd o x a; do es <- go r; Ok (e :: es) end) (a :: l); Ok (XOr es)).
    assert (forall l, (fix go l := match l with [] => Ok [] | a :: r => do e <- outInnerAnd o x a; do es <- go r; Ok (e :: es) end) l = mapO (outInnerAnd o x) l) as -> by (let q := fresh in intro q; induction q as [|? ? IHq]; [reflexivity|]; cbn [mapO]; now rewrite IHq). reflexivity.
  Qed.
  Lemma outAnd_eq : forall a l, outInnerAnd o x (FeInnerAnd (a :: l)) = do es <- mapO (outSub o x) (a :: l); Ok (XAnd es).
  Proof.
    intros a l. change (outInnerAnd o x (FeInnerAnd (a :: l))) with (do es <- (fix go l := match l with [] => Ok [] | a :: r => do e <- outSub o x a; do es <- go r; Ok (e :: es) end) (a :: l); Ok (XAnd es)).
    assert (forall l, (fix go l := match l with [] => Ok [] | a :: r => do e <- outSub o x a; do es <- go r; Ok (e :: es) end) l = mapO (outSub o x) l) as -> by (let q := fresh in intro q; induction q as [|? ? IHq]; [reflexivity|]; cbn [mapO]; now rewrite IHq). reflexivity.
  Qed.
  Fixpoint allL {A : Type} (P : A -> Prop) (l : list A) : Prop := match l with [] => True | a :: r => P a /\ allL P r end.
  Lemma allBasic_eq : forall P a l, allBasic P (FOr a l) <-> allL (allConj P) (a :: l).
  Proof. intros. cbn [allBasic allL]. assert (forall l, (fix go l := match l with [] => True | c :: r => allConj P c /\ go r end) l <-> allL (allConj P) l) as X by (induction l0; cbn; tauto). change (allConj P a /\ (fix go l := match l with [] => True | c :: r => allConj P c /\ go r end) l <-> allConj P a /\ allL (allConj P) l). now rewrite X. Qed.
  Lemma allConj_eq : forall P a l, allConj P (FAnd a l) <-> allL (allTerm P) (a :: l).
  Proof. intros. assert (forall l, (fix go l := match l with [] => True | c :: r => allTerm P c /\ go r end) l <-> allL (allTerm P) l) as X by (induction l0; cbn; tauto). change (allTerm P a /\ (fix go l := match l with [] => True | c :: r => allTerm P c /\ go r end) l <-> allTerm P a /\ allL (allTerm P) l). now rewrite X. Qed.
  Lemma out_list : forall A B (f : B -> outcome expr) (t : A -> B) (g : A -> expr) (L K : A -> Prop) l,
    Forall (fun a => L a -> outcomeIs (f (t a)) (g a) (K a)) l -> allL L l ->
    mapO f (map t l) = Ok (map g l) /\ allL K l \/ mapO f (map t l) = Err /\ ~ allL K l.
  Proof.
    intros A B f t g L K l H. induction H as [|a l Ha HF IH]; intro HL; [left; auto|]. destruct HL as [La HL]. cbn [map mapO allL].
    destruct (Ha La) as [[-> HK]|[-> HK]]; cbn [obind]; [|right; tauto]. destruct (IH HL) as [[-> HK2]|[-> HK2]]; cbn [obind]; [left|right]; tauto.
  Qed.
  Lemma out_filter : forall f, allBasic basicLits f -> outcomeIs (outInner o x (tFilter f)) (xFilter x f) (allBasic (basicOk o x) f).
  Proof.
    apply (filter_ind'
      (fun f => allBasic basicLits f -> outcomeIs (outInner o x (tFilter f)) (xFilter x f) (allBasic (basicOk o x) f))
      (fun c => allConj basicLits c -> outcomeIs (outInnerAnd o x (tConj c)) (xConj x c) (allConj (basicOk o x) c))
      (fun t => allTerm basicLits t -> outcomeIs (outSub o x (tTerm t)) (xTerm x t) (allTerm (basicOk o x) t))).
    - intros a l Ha Hl H. apply allBasic_eq in H. pose proof (allBasic_eq (basicOk o x) a l) as HE.
      change (tFilter (FOr a l)) with (FeInner (tConj a :: map tConj l)). change (xFilter x (FOr a l)) with (XOr (map (xConj x) (a :: l))).
      rewrite outInner_eq. change (tConj a :: map tConj l) with (map tConj (a :: l)). unfold outcomeIs.
      destruct (out_list _ _ (outInnerAnd o x) tConj (xConj x) (allConj basicLits) (allConj (basicOk o x)) (a :: l)) as [[-> HK]|[-> HK]]; auto; cbn [obind]; [left|right]; tauto.
    - intros a l Ha Hl H. apply allConj_eq in H. pose proof (allConj_eq (basicOk o x) a l) as HE.
      change (tConj (FAnd a l)) with (FeInnerAnd (tTerm a :: map tTerm l)). change (xConj x (FAnd a l)) with (XAnd (map (xTerm x) (a :: l))).
      rewrite outAnd_eq. change (tTerm a :: map tTerm l) with (map tTerm (a :: l)). unfold outcomeIs.
      destruct (out_list _ _ (outSub o x) tTerm (xTerm x) (allTerm basicLits) (allTerm (basicOk o x)) (a :: l)) as [[-> HK]|[-> HK]]; auto; cbn [obind]; [left|right]; tauto.
    - intros f IH H. exact (IH H).
    - intros c H. exact (out_cond c H).
  Qed.
End Out.

(** ** Meaning *)
Lemma look1 : forall f, funLookup (name1 f) funTable = Some (Fn1 (fun1 f)).
Proof. destruct f; reflexivity. Qed.
Lemma look2 : forall p, funLookup (aopName p) funTable = Some (Fn2 (aopFun p)).
Proof. destruct p; reflexivity. Qed.
Lemma lookNeg : funLookup (s2b "mathNegate") funTable = Some (Fn1 mathNeg).
Proof. reflexivity. Qed.
Lemma lookAtan2 : funLookup (s2b "mathAtan2") funTable = Some (Fn2 (fun o => mathFun2 o FAtan2)).
Proof. reflexivity. Qed.
Lemma lookPow : funLookup (s2b "mathPow") funTable = Some (Fn2 (fun o => mathFun2 o FPow)).
Proof. reflexivity. Qed.

Section Truth.
  Variable o : oracles.
  Variable x : textEnv.
  Variable doc : cst.
  Notation ov := (oval o doc doc).
  Lemma oval1 : forall n f a, funLookup n funTable = Some (Fn1 f) -> ov (XFunc n [a]) = do v <- ov a; f o v.
  Proof. intros n f a E. cbn [oval]. now rewrite E. Qed.
  Lemma oval2 : forall n f a b, funLookup n funTable = Some (Fn2 f) -> ov (XFunc n [a; b]) = do v <- ov a; do w <- ov b; f o v w.
  Proof. intros n f a b E. cbn [oval]. now rewrite E. Qed.
  Lemma oval_neg : forall neg e, ov (negx neg e) = negated o neg (ov e).
  Proof. intros [|] e; [|reflexivity]. unfold negx, negated. apply (oval1 _ _ _ lookNeg). Qed.
  Lemma oval_field : forall f, ov (xField f) = fieldVal o doc f.
  Proof. intro f. unfold xField, fieldVal. rewrite oval_neg. reflexivity. Qed.
  Lemma oval_value : forall g, ov (XValue g) = const o g.
  Proof. reflexivity. Qed.
  Lemma oval_fmath : forall m, ov (xFmath m) = fmathVal o doc m.
  Proof.
    intros [f|n p f|f p n|f p g]; unfold xFmath, fmathVal; rewrite ?(oval2 _ _ _ _ (look2 p)), ?oval_field, ?oval_value; reflexivity.
  Qed.
  Lemma oval_call : (forall c, ov (xCall c) = callVal o doc c) /\ (forall a, ov (xArg a) = argVal o doc a).
  Proof.
    apply call_arg_ind.
    - intro neg. apply (oval_neg neg).
    - intro neg. apply (oval_neg neg).
    - intros neg f a IH. rewrite xc_one, oval_neg, (oval1 _ _ _ (look1 f)), IH. reflexivity.
    - intros neg a IHa b IHb. rewrite (proj1 (xc_two neg a b)), oval_neg, (oval2 _ _ _ _ lookAtan2), IHa, IHb. reflexivity.
    - intros neg a IHa b IHb. rewrite (proj2 (xc_two neg a b)), oval_neg, (oval2 _ _ _ _ lookPow), IHa, IHb. reflexivity.
    - intros c IH. exact IH.
    - intro m. apply oval_fmath.
    - intro v. reflexivity.
  Qed.
  Lemma oval_side : forall s, ov (xSide s) = sideVal o doc s.
  Proof. intros [c|u b|m|v]; [apply oval_call|reflexivity|apply oval_fmath|reflexivity]. Qed.

  Definition refs (l : list field) : list fieldref := map (fun f => (0, fieldPath f)) l.
  Lemma refs_neg : forall neg e, frefs (negx neg e) = frefs e.
  Proof. intros [|] e; [|reflexivity]. cbn [negx frefs flat_map]. apply app_nil_r. Qed.
  Lemma refs_field : forall f, frefs (xField f) = refs [f].
  Proof. intro f. unfold xField. now rewrite refs_neg. Qed.
  Lemma refs_fmath : forall m, frefs (xFmath m) = refs (fmathFields m).
  Proof. intros [f|n p f|f p n|f p g]; unfold xFmath; cbn [frefs flat_map fmathFields]; rewrite ?refs_field; reflexivity. Qed.
  Lemma refs_app : forall a b, refs (a ++ b) = refs a ++ refs b.
  Proof. intros. apply map_app. Qed.
  Lemma refs_call : (forall c, frefs (xCall c) = refs (callFields c)) /\ (forall a, frefs (xArg a) = refs (argFields a)).
  Proof.
    apply call_arg_ind.
    - intro neg. apply (refs_neg neg).
    - intro neg. apply (refs_neg neg).
    - intros neg f a IH. rewrite xc_one, refs_neg. cbn [frefs flat_map]. rewrite app_nil_r, IH. reflexivity.
    - intros neg a IHa b IHb. rewrite (proj1 (xc_two neg a b)), refs_neg. cbn [frefs flat_map]. rewrite app_nil_r, IHa, IHb, <- refs_app. reflexivity.
    - intros neg a IHa b IHb. rewrite (proj2 (xc_two neg a b)), refs_neg. cbn [frefs flat_map]. rewrite app_nil_r, IHa, IHb, <- refs_app. reflexivity.
    - intros c IH. exact IH.
    - intro m. apply refs_fmath.
    - intro v. reflexivity.
  Qed.
  Lemma refs_side : forall s, frefs (xSide s) = refs (sideFields s).
  Proof. intros [c|u b|m|v]; [apply refs_call|reflexivity|apply refs_fmath|reflexivity]. Qed.
  Lemma present_refs : forall e fs, frefs e = refs fs -> allPresent doc doc e = there doc fs.
  Proof.
    intros e fs E. unfold allPresent. rewrite E. unfold refs, there. clear E. induction fs as [|f fs IH]; auto. cbn [map forallb]. rewrite IH. reflexivity.
  Qed.
  Lemma there_app : forall a b, there doc (a ++ b) = there doc a && there doc b.
  Proof. intros. unfold there. apply forallb_app. Qed.
  Lemma cmp_compares : forall k l r fl fr vl vr, frefs l = refs fl -> frefs r = refs fr -> ov l = vl -> ov r = vr ->
    cmpTruth o doc doc k l r = compares o doc k (fl ++ fr) vl vr.
  Proof. intros k l r fl fr vl vr El Er Ul Ur. unfold cmpTruth, compares. rewrite (present_refs l fl El), (present_refs r fr Er), there_app, Ul, Ur. reflexivity. Qed.
  Lemma pat_refs : forall p, frefs (pattern x p) = refs [] /\ ov (pattern x p) = constRef o (pattern x p).
  Proof. intro p. unfold pattern. destruct (tokenIsPcre _); split; reflexivity. Qed.
  Lemma truth_basic : forall b, truth o doc doc (xBasic x b) = means1 o x doc b.
  Proof.
    intros [u c|a p|a c|f|l p r|neg l|neg l]; cbn [xBasic means1].
    - destruct c; reflexivity.
    - cbn [truth]. destruct (pat_refs p) as [E1 E2]. rewrite (cmp_compares CLike _ _ _ _ _ _ (proj2 refs_call a) E1 (proj2 oval_call a) E2). now rewrite app_nil_r.
    - reflexivity.
    - cbn [truth]. apply present_refs. apply refs_field.
    - destruct p; cbn [cmpOf truth]; rewrite (cmp_compares _ _ _ _ _ _ _ (refs_side l) (refs_side r) (oval_side l) (oval_side r)); reflexivity.
    - assert (cmpTruth o doc doc CEq (xSide l) (XValue GNil) = compares o doc CEq (sideFields l) (sideVal o doc l) (const o GNil)) as E.
      { rewrite (cmp_compares CEq (xSide l) (XValue GNil) (sideFields l) [] _ _ (refs_side l) eq_refl (oval_side l) eq_refl). now rewrite app_nil_r. }
      destruct neg; cbn [truth xorb]; rewrite E; now destruct (compares _ _ _ _ _ _).
    - destruct neg; cbn [truth xorb]; rewrite (present_refs _ _ (refs_side l)); now destruct (there _ _).
  Qed.
  Lemma truth_cond : forall c, truth o doc doc (xCond x c) = meansCond o x doc c.
  Proof. induction c as [c IH|b]; cbn [xCond truth meansCond]; [now rewrite IH|apply truth_basic]. Qed.
  Lemma ex_map : forall A (f : expr -> bool) (g : A -> expr) h l, Forall (fun a => f (g a) = h a) l -> existsb f (map g l) = existsb h l.
  Proof. intros A f g h l H. induction H as [|a l E H IH]; auto. cbn. now rewrite E, IH. Qed.
  Lemma all_map : forall A (f : expr -> bool) (g : A -> expr) h l, Forall (fun a => f (g a) = h a) l -> forallb f (map g l) = forallb h l.
  Proof. intros A f g h l H. induction H as [|a l E H IH]; auto. cbn. now rewrite E, IH. Qed.
  Lemma truth_filter : forall f, truth o doc doc (xFilter x f) = means o x doc f.
  Proof.
    apply (filter_ind' (fun f => truth o doc doc (xFilter x f) = means o x doc f) (fun c => truth o doc doc (xConj x c) = meansConj o x doc c)
                       (fun t => truth o doc doc (xTerm x t) = meansTerm o x doc t)).
    - intros a l Ha Hl. change (xFilter x (FOr a l)) with (XOr (map (xConj x) (a :: l))). cbn [truth]. now apply (ex_map _ _ _ (meansConj o x doc) (a :: l)); constructor.
    - intros a l Ha Hl. change (xConj x (FAnd a l)) with (XAnd (map (xTerm x) (a :: l))). cbn [truth]. now apply (all_map _ _ _ (meansTerm o x doc) (a :: l)); constructor.
    - intros f IH. exact IH.
    - intro c. apply truth_cond.
  Qed.
End Truth.

(** ** Fitness *)
Section Fit.
  Variable o : oracles.
  Variable x : textEnv.
  Lemma opk_neg : forall neg e, operandOk o 0 e -> operandOk o 0 (negx neg e).
  Proof. intros [|] e HE; [|exact HE]. apply operandOk_func. split; [exact HE|exact I]. Qed.
  Lemma opk_fun1 : forall n e, operandOk o 0 e -> operandOk o 0 (XFunc n [e]).
  Proof. intros n e HE. apply operandOk_func. split; [exact HE|exact I]. Qed.
  Lemma opk_fun2 : forall n e e', operandOk o 0 e -> operandOk o 0 e' -> operandOk o 0 (XFunc n [e; e']).
  Proof. intros n e e' HE HE'. apply operandOk_func. repeat split; auto. Qed.
  Lemma opk_field : forall f, operandOk o 0 (xField f).
  Proof. intro f. apply opk_neg. now left. Qed.
  Lemma opk_val : forall g, operandOk o 0 (XValue g).
  Proof. intro g. cbn [operandOk constRef]. eauto. Qed.
  Lemma opk_fmath : forall m, operandOk o 0 (xFmath m).
  Proof. intros [f|n p f|f p n|f p g]; unfold xFmath; [apply opk_field| | |]; apply opk_fun2; auto using opk_field, opk_val. Qed.
  Lemma opk_call : (forall c, operandOk o 0 (xCall c)) /\ (forall a, operandOk o 0 (xArg a)).
  Proof.
    apply call_arg_ind.
    - intro neg. apply (opk_neg neg), opk_val.
    - intro neg. apply (opk_neg neg), opk_val.
    - intros neg f a IH. rewrite xc_one. now apply opk_neg, opk_fun1.
    - intros neg a IHa b IHb. rewrite (proj1 (xc_two neg a b)). now apply opk_neg, opk_fun2.
    - intros neg a IHa b IHb. rewrite (proj2 (xc_two neg a b)). now apply opk_neg, opk_fun2.
    - intros c IH. exact IH.
    - intro m. apply opk_fmath.
    - intro v. apply opk_val.
  Qed.
  Lemma opk_side : forall s, operandOk o 0 (xSide s).
  Proof. intros [c|u b|m|v]; [apply opk_call|apply opk_val|apply opk_fmath|apply opk_val]. Qed.

  Ltac inlist := solve [repeat (first [left; reflexivity | right])].
  Lemma fn_neg : forall neg e, funsOk e -> funsOk (negx neg e).
  Proof. intros [|] e HE; [|exact HE]. split; [left; split; [inlist|cbn; lia]|]. split; [exact HE|exact I]. Qed.
  Lemma fn_field : forall f, funsOk (xField f).
  Proof. intro f. apply fn_neg. exact I. Qed.
  Lemma fn_aop : forall p e e', noDiv p -> funsOk e -> funsOk e' -> funsOk (XFunc (aopName p) [e; e']).
  Proof. intros p e e' HP HE HE'. split; [right; split; [destruct p; try contradiction; inlist|cbn; lia]|]. repeat split; auto. Qed.
  Lemma fn_fmath : forall m, fmathRun m -> funsOk (xFmath m).
  Proof. intros [f|n p f|f p n|f p g] HR; unfold xFmath; [apply fn_field| | |]; apply fn_aop; auto using fn_field; exact I. Qed.
  Lemma fn_call : (forall c, callRun c -> funsOk (xCall c)) /\ (forall a, argRun a -> funsOk (xArg a)).
  Proof.
    apply call_arg_ind.
    - intros neg _. apply (fn_neg neg). exact I.
    - intros neg _. apply (fn_neg neg). exact I.
    - intros neg f a IH HR. rewrite xc_one. apply fn_neg. split; [left; split; [destruct f; inlist|cbn; lia]|]. split; [now apply IH|exact I].
    - intros neg a IHa b IHb [Ha Hb]. rewrite (proj1 (xc_two neg a b)). apply fn_neg. split; [right; split; [inlist|cbn; lia]|]. split; [now apply IHa|split; [now apply IHb|exact I]].
    - intros neg a IHa b IHb [Ha Hb]. rewrite (proj2 (xc_two neg a b)). apply fn_neg. split; [right; split; [inlist|cbn; lia]|]. split; [now apply IHa|split; [now apply IHb|exact I]].
    - intros c IH. exact IH.
    - intro m. apply fn_fmath.
    - intros v _. exact I.
  Qed.
  Lemma fn_side : forall s, sideRun s -> funsOk (xSide s).
  Proof. intros [c|u b|m|v] HR; [now apply fn_call|exact I|now apply fn_fmath|exact I]. Qed.

  Lemma paths_refs : forall e fs, frefs e = refs fs -> pathsOf 0 e = map fieldPath fs.
  Proof. intros e fs E. unfold pathsOf. rewrite E. unfold refs. clear E. induction fs as [|f fs IH]; [reflexivity|]. cbn. f_equal. exact IH. Qed.
  Lemma pat_norefs : forall p, frefs (pattern x p) = [].
  Proof. intro p. unfold pattern. now destruct (tokenIsPcre _). Qed.
  Lemma basic_refs : forall b, frefs (xBasic x b) = refs (basicFields b).
  Proof.
    intros [u c|a p|a c|f|l p r|neg l|neg l]; cbn [xBasic basicFields].
    - destruct c; reflexivity.
    - cbn [frefs]. rewrite (proj2 refs_call a), pat_norefs. apply app_nil_r.
    - reflexivity.
    - apply refs_field.
    - cbn [frefs]. now rewrite !refs_side, refs_app.
    - destruct neg; cbn [frefs]; rewrite refs_side; apply app_nil_r.
    - destruct neg; apply refs_side.
  Qed.

  Lemma pat_ok : forall p, (lookaround (valueText x p) -> o_pcreCompiles o (valueText x p) = true) ->
    (~ lookaround (valueText x p) -> o_regexCompiles o (valueText x p) = true) -> operandOk o 0 (pattern x p).
  Proof.
    intros p H1 H2. unfold pattern. destruct (tokenIsPcre (valueText x p)) eqn:E.
    - apply pcre_iff in E. cbn [operandOk constRef]. rewrite (H1 E). eauto.
    - assert (~ lookaround (valueText x p)) as N by (intro L; apply pcre_iff in L; congruence). cbn [operandOk constRef]. rewrite (H2 N). eauto.
  Qed.
  Lemma basic_compilable : forall b, basicBuilds o x b -> compilable o 0 (xBasic x b).
  Proof.
    intros b [HB HP]. rewrite <- (paths_refs _ _ (basic_refs b)) in HP. destruct b as [u c|a p|a c|f|l p r|neg l|neg l]; cbn [xBasic] in *.
    - destruct c; reflexivity.
    - destruct HB as (H1 & H2). split; [apply opk_call|]. split; [now apply pat_ok|exact HP].
    - reflexivity.
    - split; [apply opk_field|exact HP].
    - split; [apply opk_side|]. split; [apply opk_side|exact HP].
    - destruct neg; (split; [apply opk_side|]; split; [apply opk_val|exact HP]).
    - destruct neg; [|split; [reflexivity|]]; (split; [apply opk_side|exact HP]).
  Qed.
  Lemma pat_fun : forall p, funsOk (pattern x p).
  Proof. intro p. unfold pattern. now destruct (tokenIsPcre _). Qed.
  Lemma basic_regular : forall P b, basicRun b -> regular P 0 (xBasic x b).
  Proof.
    intros P b HB. destruct b as [u c|a p|a c|f|l p r|neg l|neg l]; cbn [xBasic basicRun] in *.
    - subst c. exact I.
    - split; [now apply fn_call|apply pat_fun].
    - contradiction.
    - apply fn_field.
    - destruct HB as [Hl Hr]. split; now apply fn_side.
    - destruct neg; (split; [now apply fn_side|exact I]).
    - destruct neg; now apply fn_side.
  Qed.
  Lemma basic_loopFree : forall b, loopFree (xBasic x b).
  Proof. intros [u [|]|a p|a c|f|l p r|[|] l|[|] l]; exact I. Qed.

  Lemma map_refs : forall fs, map snd (refs fs) = map fieldPath fs.
  Proof. intro fs. unfold refs. rewrite map_map. reflexivity. Qed.
  Lemma args_field : forall f, argPaths (xField f) = map fieldPath (fieldWork f).
  Proof. intros [neg a l]. unfold xField, fieldWork, negx. cbn [fl_neg]. destruct neg; reflexivity. Qed.
  Lemma args_fmath : forall m, argPaths (xFmath m) = map fieldPath (fmathWork m).
  Proof.
    intros m. pose proof (refs_fmath m) as E. destruct m as [f|n p f|f p n|f p g]; [apply args_field| | |];
      unfold argPaths, xFmath in *; rewrite E; apply map_refs.
  Qed.
  Lemma args_call : forall c, argPaths (xCall c) = map fieldPath (callFields c).
  Proof.
    intro c. pose proof (proj1 refs_call c) as E. destruct c as [neg|neg|neg f a|neg a b|neg a b].
    - destruct neg; reflexivity.
    - destruct neg; reflexivity.
    - rewrite xc_one in *. destruct neg; cbn [negx] in *; unfold argPaths; rewrite E; apply map_refs.
    - rewrite (proj1 (xc_two neg a b)) in *. destruct neg; cbn [negx] in *; unfold argPaths; rewrite E; apply map_refs.
    - rewrite (proj2 (xc_two neg a b)) in *. destruct neg; cbn [negx] in *; unfold argPaths; rewrite E; apply map_refs.
  Qed.
  Lemma args_arg : forall a, argPaths (xArg a) = map fieldPath (argWork a).
  Proof. intros [c|m|v]; [apply args_call|apply args_fmath|reflexivity]. Qed.
  Lemma args_side : forall s, argPaths (xSide s) = map fieldPath (sideWork s).
  Proof. intros [c|u b|m|v]; [apply args_call|reflexivity|apply args_fmath|reflexivity]. Qed.
  Lemma pat_args : forall p, argPaths (pattern x p) = [].
  Proof. intro p. unfold pattern. now destruct (tokenIsPcre _). Qed.

  Lemma atom_tame : forall doc e fs wk, frefs e = refs fs -> opArgs e = map fieldPath wk ->
    (forall f, In f fs -> filled doc (fieldPath f)) -> (fs = [] -> emptyC doc = false) ->
    (two (map fieldPath fs) -> forall f, In f wk -> at_ (fieldPath f) doc <> None) -> atomTame 0 doc e.
  Proof.
    intros doc e fs wk E1 E2 H1 H2 H3. unfold atomTame. rewrite (paths_refs e fs E1), E2. split; [|split].
    - intros q Hq. apply in_map_iff in Hq as (f & <- & Hf). now apply H1.
    - intro E. apply map_eq_nil in E. now apply H2.
    - intros HT q Hq. cbn [Nat.eqb] in Hq. apply in_map_iff in Hq as (f & <- & Hf). now apply H3.
  Qed.
  Lemma basic_tame : forall doc b, fits doc b -> tame doc 0 doc (xBasic x b).
  Proof.
    intros doc b HF. pose proof (basic_refs b) as E. destruct b as [u c|a p|a c|f|l p r|neg l|neg l]; cbn [xBasic] in *.
    - destruct c; exact I.
    - destruct HF as (H1 & H2 & H3). apply (fun Y => atom_tame doc _ _ (argWork a) E Y H1 H2 H3); cbn [opArgs]. now rewrite args_arg, pat_args, app_nil_r.
    - exact I.
    - destruct HF as (H1 & H2 & H3). apply (fun Y => atom_tame doc _ _ (fieldWork f) E Y H1 H2 H3); cbn [opArgs]. apply args_field.
    - destruct HF as (H1 & H2 & H3). apply (fun Y => atom_tame doc _ _ (sideWork l ++ sideWork r) E Y H1 H2 H3); cbn [opArgs]. now rewrite !args_side, map_app.
    - destruct HF as (H1 & H2 & H3). assert (atomTame 0 doc (XCmp CEq (xSide l) (XValue GNil))) as X.
      { apply (atom_tame doc _ (sideFields l) (sideWork l)); auto.
        - cbn [frefs]. rewrite refs_side. apply app_nil_r.
        - cbn [opArgs argPaths]. rewrite args_side. apply app_nil_r. }
      destruct neg; exact X.
    - destruct HF as (H1 & H2 & H3). assert (atomTame 0 doc (XExists (xSide l))) as X.
      { apply (atom_tame doc _ (sideFields l) (sideWork l)); auto; cbn [frefs opArgs]; [apply refs_side|apply args_side]. }
      destruct neg; exact X.
  Qed.

  (** A property of the basic conditions that the connectives keep. *)
  Lemma lift_all : forall (P : tbasic -> Prop) (Q : expr -> Prop),
    (forall b, P b -> Q (xBasic x b)) -> (forall e, Q e -> Q (XNot e)) ->
    (forall e l, Q e -> Forall Q l -> Q (XAnd (e :: l))) -> (forall e l, Q e -> Forall Q l -> Q (XOr (e :: l))) ->
    forall f, allBasic P f -> Q (xFilter x f).
  Proof.
    intros P Q HB HN HA HO.
    assert (forall c, allCond P c -> Q (xCond x c)) as HC by (induction c as [c IH|b]; intro X; [apply HN; now apply IH|now apply HB]).
    assert (forall A (L : A -> Prop) (g : A -> expr) l, Forall (fun a => L a -> Q (g a)) l -> allL L l -> Forall Q (map g l)) as HL.
    { intros A L g l X. induction X as [|a l Xa XF IH]; intro Y; [constructor|]. destruct Y. constructor; auto. }
    apply (filter_ind' (fun f => allBasic P f -> Q (xFilter x f)) (fun c => allConj P c -> Q (xConj x c)) (fun t => allTerm P t -> Q (xTerm x t))).
    - intros a l Ha Hl X. apply allBasic_eq in X. destruct X as [Xa Xl]. change (Q (XOr (xConj x a :: map (xConj x) l))). apply HO; [now apply Ha|]. now apply (HL _ (allConj P)).
    - intros a l Ha Hl X. apply allConj_eq in X. destruct X as [Xa Xl]. change (Q (XAnd (xTerm x a :: map (xTerm x) l))). apply HA; [now apply Ha|]. now apply (HL _ (allTerm P)).
    - intros f IH X. now apply IH.
    - intros c X. now apply HC.
  Qed.
  Lemma filter_compilable : forall f, allBasic (basicBuilds o x) f -> compilable o 0 (xFilter x f).
  Proof.
    apply lift_all; [apply basic_compilable|auto| |]; intros e l He Hl; (apply compilable_and || apply compilable_or); (split; [discriminate|]); split; auto; now apply allC_forall.
  Qed.
  Lemma filter_regular : forall P f, allBasic basicRun f -> regular P 0 (xFilter x f).
  Proof. intro P. apply lift_all; [apply basic_regular|auto| |]; intros e l He Hl; (apply reg_and || apply reg_or); now constructor. Qed.
  Lemma filter_loopFree : forall f, allBasic basicRun f -> loopFree (xFilter x f).
  Proof. apply lift_all; [intros; apply basic_loopFree|auto| |]; intros e l He Hl; (apply loopFree_and || apply loopFree_or); now constructor. Qed.
  Lemma filter_tame : forall doc f, allBasic (fits doc) f -> tame doc 0 doc (xFilter x f).
  Proof.
    intro doc. apply lift_all; [apply basic_tame|auto| |]; intros e l He Hl; cbn [tame]; (split; [exact He|]); induction Hl; split; auto.
  Qed.
End Fit.
