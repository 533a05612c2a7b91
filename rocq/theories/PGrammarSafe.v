(** The grammar of text filters: the bound on recursion is never reached, and no tree
    that comes out crashes the translation. *)
From Coq Require Import String.
From Verif Require Import Base MTokenizer MLit MFastVal MMath SEvents MExpr MExprJson MTransform MMatcher MText MGrammar.
From Coq Require Import List NArith ZArith Arith Lia Bool.
Import ListNotations.
Open Scope string_scope.
Open Scope nat_scope.

(** On fewer than [m] tokens: no exhaustion, nothing is made up, and if [b] then a
    match uses at least one token. *)
Definition safe {A : Type} (m : nat) (b : bool) (p : parser A) : Prop := forall ts, length ts < m ->
  match p ts with
  | PNone => True
  | PFail r => length r <= length ts
  | POk _ r => length r + Nat.b2n b <= length ts
  | PFuel => False
  end.
Definition gives {A : Type} (P : A -> Prop) (p : parser A) : Prop := forall ts a r, p ts = POk a r -> P a.

Lemma safe_mono : forall A m m' b (p : parser A), safe m b p -> m' <= m -> safe m' b p.
Proof. intros A m m' b p H HL ts HT. apply H. lia. Qed.
Lemma safe_weak : forall A m b (p : parser A), safe m b p -> safe m false p.
Proof. intros A m b p H ts HT. specialize (H ts HT). destruct (p ts); auto. cbn [Nat.b2n]. lia. Qed.
Lemma safe_map : forall A B m b (f : A -> B) p, safe m b p -> safe m b (pmap f p).
Proof. intros A B m b f p H ts HT. specialize (H ts HT). unfold pmap. destruct (p ts); auto. Qed.
Lemma safe_then : forall A B m b (p : parser A) (k : A -> parser B), safe m true p -> (forall a, safe (pred m) b (k a)) -> safe m true (pthen p k).
Proof.
  intros A B m b p k H HK ts HT. specialize (H ts HT). unfold pthen. destruct (p ts) as [|r|a r|]; auto. cbn [Nat.b2n] in *.
  specialize (HK a r ltac:(lia)). destruct (k a r); auto; cbn; try lia.
Qed.
Lemma safe_then0 : forall A B m b b' (p : parser A) (k : A -> parser B), safe m b' p -> (forall a, safe m b (k a)) -> safe m b (pthen p k).
Proof.
  intros A B m b b' p k H HK ts HT. specialize (H ts HT). unfold pthen. destruct (p ts) as [|r|a r|]; auto.
  specialize (HK a r ltac:(lia)). destruct (k a r); auto; try lia.
Qed.
Lemma safe_ret : forall A m (a : A), safe m false (pret a).
Proof. intros A m a ts HT. cbn. lia. Qed.
Lemma safe_lit : forall m s, safe m true (pLit s).
Proof. intros m s [|t r] HT; cbn; auto. destruct (bytes_eqb (tk_text t) (s2b s)); cbn; auto; lia. Qed.
Lemma safe_kind : forall m k, safe m true (pKind k).
Proof. intros m s [|t r] HT; cbn; auto. destruct (kind_eqb (tk_kind t) s); cbn; auto; lia. Qed.
Lemma safe_flag : forall m s, safe m true (pFlag s).
Proof. intros. apply safe_map, safe_lit. Qed.

Lemma gives_map : forall A B (Q : A -> Prop) (P : B -> Prop) (f : A -> B) p, gives Q p -> (forall a, Q a -> P (f a)) -> gives P (pmap f p).
Proof. intros A B Q P f p H HF ts a r E. unfold pmap in E. destruct (p ts) eqn:X; inversion E; subst. eauto. Qed.
Lemma gives_then : forall A B (Q : A -> Prop) (P : B -> Prop) p (k : A -> parser B), gives Q p -> (forall a, Q a -> gives P (k a)) -> gives P (pthen p k).
Proof.
  intros A B Q P p k H HK ts a r E. unfold pthen in E. destruct (p ts) eqn:X; inversion E. destruct (k a0 rest) eqn:Y; inversion E; subst. eapply HK; eauto.
Qed.
Lemma gives_ret : forall A (P : A -> Prop) a, P a -> gives P (pret a).
Proof. intros A P a H ts b r E. inversion E; subst. auto. Qed.
Lemma gives_any : forall A (p : parser A), gives (fun _ => True) p.
Proof. repeat intro. exact I. Qed.

Section Lib.
  Variable L : lib.
  Variable intOf : bytes -> option Z.
  Variable floatOf : bytes -> option float.

  Lemma safe_alts : forall A m b (ps : list (parser A)) fl, Forall (safe m b) ps -> safe m b (pAlts L fl ps).
  Proof.
    intros A m b ps. induction ps as [|p ps IH]; intros fl H ts HT; cbn [pAlts].
    - destruct (fl && l_keep L); auto.
    - inversion H as [|? ? H1 H2]; subst. specialize (H1 ts HT). destruct (p ts) as [|r|a r|]; auto; [now apply IH|]. destruct (tooFar L ts r); auto. now apply IH.
  Qed.
  Lemma safe_alt : forall A m b (ps : list (parser A)), Forall (safe m b) ps -> safe m b (pAlt L ps).
  Proof. intros. now apply safe_alts. Qed.
  Lemma safe_opt : forall A m b (p : parser A), safe m b p -> safe m false (pOpt L p).
  Proof. intros A m b p H ts HT. specialize (H ts HT). unfold pOpt. destruct (p ts) as [|r|a r|]; auto; cbn [Nat.b2n] in *; try lia. destruct (tooFar L ts r); cbn [Nat.b2n]; lia. Qed.
  Lemma safe_reps : forall A m (p : parser A), safe m true p -> forall n ts, length ts < n -> length ts < m ->
    match pReps L n p ts with PNone => True | PFail r => length r <= length ts | POk _ r => length r <= length ts | PFuel => False end.
  Proof.
    intros A m p H. induction n as [|n IH]; intros ts HN HT; [lia|]. cbn [pReps]. specialize (H ts HT). destruct (p ts) as [|r|a r|]; auto.
    - destruct (tooFar L ts r); auto.
    - cbn in H. specialize (IH r ltac:(lia) ltac:(lia)). unfold pmap. destruct (pReps L n p r); auto; lia.
  Qed.
  Lemma safe_rep : forall A m (p : parser A), safe m true p -> safe m false (pRep L p).
  Proof.
    intros A m p H ts HT. unfold pRep. pose proof (safe_reps A m p H (S (length ts)) ts ltac:(lia) HT) as HR. destruct (pReps L (S (length ts)) p ts); auto. cbn. lia.
  Qed.
  Lemma gives_alts : forall A (P : A -> Prop) (ps : list (parser A)) fl, Forall (gives P) ps -> gives P (pAlts L fl ps).
  Proof.
    intros A P ps. induction ps as [|p ps IH]; intros fl H ts a r E; cbn [pAlts] in E.
    - destruct (fl && l_keep L); discriminate.
    - inversion H as [|? ? H1 H2]; subst. destruct (p ts) eqn:X; try discriminate; [eapply IH; eauto| |inversion E; subst; eapply H1; eauto].
      destruct (tooFar L ts at_); [discriminate|eapply IH; eauto].
  Qed.
  Lemma gives_alt : forall A (P : A -> Prop) (ps : list (parser A)), Forall (gives P) ps -> gives P (pAlt L ps).
  Proof. intros. now apply gives_alts. Qed.
  Lemma gives_rep : forall A (P : A -> Prop) (p : parser A), gives P p -> gives (Forall P) (pRep L p).
  Proof.
    intros A P p H ts. unfold pRep. generalize (S (length ts)) as n. intro n. revert ts. induction n as [|n IH]; intros ts a r E; cbn [pReps] in E; [discriminate|].
    destruct (p ts) as [|r'|b r'|] eqn:X; try discriminate.
    - inversion E; subst. constructor.
    - destruct (tooFar L ts r'); inversion E; subst. constructor.
    - unfold pmap in E. destruct (pReps L n p r') eqn:Y; inversion E; subst. constructor; eauto.
  Qed.

  (** ** No exhaustion *)
  Local Hint Resolve safe_ret safe_lit safe_kind safe_flag : sf.
  Ltac sf := repeat first
    [ solve [eauto with sf] | apply Forall_cons | apply Forall_nil | apply safe_map | apply safe_alt
    | (eapply safe_opt; solve [eauto with sf]) | (eapply safe_rep)
    | (eapply safe_then; [solve [sf0]|intro]) | (eapply safe_then0; [solve [sf0]|intro]) ]
  with sf0 := repeat first [ solve [eauto with sf] | apply Forall_cons | apply Forall_nil | apply safe_map | apply safe_alt | (eapply safe_rep) ].
  Lemma s_minus : forall m, safe m false (pMinus L).
  Proof. intro. unfold pMinus. sf. Qed.
  Local Hint Resolve s_minus : sf.
  Lemma s_boolean : forall m, safe m true (pBoolean L).
  Proof. intro. unfold pBoolean. sf. Qed.
  Lemma s_mathValue : forall m, safe m true (pMathValue L intOf floatOf).
  Proof.
    intro. unfold pMathValue. eapply safe_then0; [apply s_minus|intro]. apply safe_then with (b := false); [sf|].
    intros [s|s] ts HT; [destruct (intOf s)|destruct (floatOf s)]; cbn; lia.
  Qed.
  Local Hint Resolve s_boolean s_mathValue : sf.
  Lemma s_value : forall m, safe m true (pValue L intOf floatOf).
  Proof. intro. unfold pValue. sf. Qed.
  Lemma s_string : forall m, safe m true (pStringType L).
  Proof. intro. unfold pStringType. sf. Qed.
  Lemma s_pathFunc : forall m, safe m true pPathFunc.
  Proof. intro. unfold pPathFunc. sf. Qed.
  Lemma s_index : forall m, safe m true pArrayIndex.
  Proof. intro. unfold pArrayIndex. sf. Qed.
  Local Hint Resolve s_value s_string s_pathFunc s_index : sf.
  Lemma s_path : forall m, safe m true (pOnePath L).
  Proof. intro. unfold pOnePath. sf. Qed.
  Local Hint Resolve s_path : sf.
  Lemma s_field : forall m, safe m true (pField L).
  Proof. intro. unfold pField. eapply safe_then0; [apply s_minus|intro]. sf. Qed.
  Lemma s_mathOp : forall m, safe m true (pMathOp L).
  Proof. intro. unfold pMathOp. sf. Qed.
  Local Hint Resolve s_field s_mathOp : sf.
  Lemma s_type0 : forall m, safe m true (pType0 L intOf floatOf).
  Proof. intro. unfold pType0. sf. Qed.
  Lemma s_type1 : forall m, safe m true (pType1 L intOf floatOf).
  Proof. intro. unfold pType1. eapply safe_then; [apply s_field|intro]. eapply safe_then0; [|sf]. apply safe_rep. eapply safe_then; [apply s_mathOp|intro]. eapply safe_then; [sf|sf]. Qed.
  Local Hint Resolve s_type0 s_type1 : sf.
  Lemma s_math : forall m, safe m true (pFieldWithMath L intOf floatOf).
  Proof. intro. unfold pFieldWithMath. sf. Qed.
  Lemma s_noArg : forall m, safe m true (pNoArg L).
  Proof. intro. unfold pNoArg. sf. Qed.
  Lemma s_name1 : forall m, safe m true (pOneArgName L).
  Proof. intro. unfold pOneArgName, name1. sf. Qed.
  Lemma s_name2 : forall m, safe m true (pTwoArgsName L).
  Proof. intro. unfold pTwoArgsName. sf. Qed.
  Local Hint Resolve s_math s_noArg s_name1 s_name2 : sf.
  Lemma s_argument : forall m sub, safe m true sub -> safe m true (pArgument L intOf floatOf sub).
  Proof. intros. unfold pArgument. sf. Qed.
  Local Hint Resolve s_argument : sf.
  Lemma s_call : forall n, safe n true (pConstFunc L intOf floatOf n).
  Proof.
    induction n as [|n IH]; [intros ts H; lia|]. cbn [pConstFunc]. unfold pConstFunc1. eapply safe_then0; [apply s_minus|intro].
    assert (safe (pred n) true (pConstFunc L intOf floatOf n)) as H1 by (eapply safe_mono; [exact IH|lia]).
    assert (safe (pred (pred (pred n))) true (pConstFunc L intOf floatOf n)) as H2 by (eapply safe_mono; [exact IH|lia]).
    apply safe_alt. constructor; [|constructor; [|constructor; [|constructor]]]; apply safe_map; [apply s_noArg|..].
    - unfold pOneArg. eapply safe_then; [apply s_name1|intro]. eapply safe_then; [apply safe_lit|intro]. cbn [pred].
      eapply safe_then; [apply s_argument, H1|intro]. eapply safe_then; [apply safe_lit|intro; apply safe_ret].
    - unfold pTwoArgs. eapply safe_then; [apply s_name2|intro]. eapply safe_then; [apply safe_lit|intro]. cbn [pred].
      eapply safe_then; [apply s_argument, H1|intro]. eapply safe_then; [apply safe_lit|intro].
      eapply safe_then; [apply s_argument, H2|intro]. eapply safe_then; [apply safe_lit|intro; apply safe_ret].
  Qed.
  Lemma s_call' : forall n m, m <= n -> safe m true (pConstFunc L intOf floatOf n).
  Proof. intros. eapply safe_mono; [apply s_call|auto]. Qed.
  Lemma s_argRHS : forall n m, m <= n -> safe m true (pArgumentRHS L intOf floatOf n).
  Proof. intros. unfold pArgumentRHS. apply safe_alt. constructor; [apply safe_map; now apply s_call'|]. sf. Qed.
  Lemma s_boolFunc : forall n, safe n true (pBooleanFunc L intOf floatOf n).
  Proof.
    intro n. unfold pBooleanFunc. apply safe_alt. constructor; [|constructor; [|constructor]]; apply safe_map.
    - unfold pBoolTwoArgs. eapply safe_then; [apply safe_map, safe_flag|intro]. eapply safe_then; [apply safe_lit|intro].
      eapply safe_then; [apply s_argument, s_call'; lia|intro]. eapply safe_then; [apply safe_lit|intro]. eapply safe_then; [apply s_argRHS; lia|intro].
      eapply safe_then; [apply safe_lit|intro; apply safe_ret].
    - unfold pExists. sf.
  Qed.
  Lemma s_opChar : forall m, safe m true (pOpChar L).
  Proof. intro. unfold pOpChar. sf. Qed.
  Local Hint Resolve s_boolFunc s_opChar : sf.
  Lemma s_compare : forall m, safe m true (pCompareOp L).
  Proof. intro. unfold pCompareOp. eapply safe_then; [apply s_opChar|intro]. eapply safe_then0; [eapply safe_opt; apply s_opChar|intro; apply safe_ret]. Qed.
  Lemma s_check : forall m, safe m true (pCheckOp L).
  Proof. intro. unfold pCheckOp. eapply safe_then; [apply safe_lit|intro]. eapply safe_then0; [eapply safe_opt; apply safe_lit|intro]. sf. Qed.
  Lemma s_lhs : forall n m, m <= n -> safe m true (pLhs L intOf floatOf n).
  Proof. intros n m H. pose proof (s_call' n m H). unfold pLhs, sdFunc, sdBool, sdField, sdValue. sf. Qed.
  Lemma s_rhs : forall n m, m <= n -> safe m true (pRhs L intOf floatOf n).
  Proof. intros n m H. pose proof (s_call' n m H). unfold pRhs, sdFunc, sdBool, sdField, sdValue. sf. Qed.
  Lemma s_operand : forall n, safe n true (pOperand L intOf floatOf n).
  Proof.
    intro n. unfold pOperand. apply safe_alt. constructor; [apply safe_map; unfold pBooleanExpr; sf|constructor; [|constructor]].
    eapply safe_then; [now apply s_lhs|intro]. apply safe_alt. constructor; [|constructor; [|constructor]].
    - eapply safe_then; [apply s_compare|intro]. eapply safe_then; [apply s_rhs; lia|intro; apply safe_ret].
    - apply safe_map, s_check.
  Qed.
  Lemma s_condition : forall n, safe n true (pCondition L intOf floatOf n).
  Proof.
    induction n as [|n IH]; [intros ts H; lia|]. cbn [pCondition]. apply safe_alt. constructor; [|constructor; [|constructor]].
    - eapply safe_then; [apply safe_lit|intro]. apply safe_map, IH.
    - apply safe_map, s_operand.
  Qed.
  Lemma s_inner : forall n, safe n true (pInner L intOf floatOf n).
  Proof.
    induction n as [|n IH]; [intros ts H; lia|]. cbn [pInner].
    assert (forall m, m <= S n -> safe m true (pSub L intOf floatOf (S n) (pInner L intOf floatOf n))) as Hsub.
    { intros m Hm. eapply safe_mono; [|exact Hm]. unfold pSub. apply safe_alt. constructor; [|constructor; [|constructor]].
      - eapply safe_then; [apply safe_lit|intro]. eapply safe_then; [exact IH|intro]. eapply safe_then; [apply safe_lit|intro; apply safe_ret].
      - apply safe_map, s_condition. }
    assert (forall m, m <= S n -> safe m true (pInnerAnd L intOf floatOf (S n) (pInner L intOf floatOf n))) as Hand.
    { intros m Hm. unfold pInnerAnd. eapply safe_then; [now apply Hsub|intro]. eapply safe_then0; [|intro; apply safe_ret].
      apply safe_rep. eapply safe_then; [apply safe_lit|intro; apply Hsub; lia]. }
    eapply safe_then; [now apply Hand|intro]. eapply safe_then0; [|intro; apply safe_ret]. apply safe_rep. eapply safe_then; [apply safe_lit|intro; apply Hand; lia].
  Qed.
  Lemma parse_total : forall ts, parseTokens L intOf floatOf ts = Err \/ exists t, parseTokens L intOf floatOf ts = Ok t.
  Proof.
    intro ts. unfold parseTokens. pose proof (s_inner (S (length ts)) ts ltac:(lia)) as H. destruct (pInner L intOf floatOf (S (length ts)) ts) as [|r|i [|t r]|]; eauto. destruct H.
  Qed.

  (** ** No crash *)
  Variable o : oracles.
  Variable x : textEnv.
  Definition calm {A : Type} (e : outcome A) : Prop := match e with Ok _ | Err => True | _ => False end.
  Lemma calm_bind : forall A B (e : outcome A) (k : A -> outcome B), calm e -> (forall a, e = Ok a -> calm (k a)) -> calm (obind e k).
  Proof. intros A B [a| | |] k H HK; cbn in *; auto. Qed.
  Lemma c_path : gives (fun p => calm (outOnePath p)) (pOnePath L).
  Proof.
    unfold pOnePath. eapply gives_then; [apply gives_any|]. intros [f|s] _; (eapply gives_then; [apply gives_any|]; intros l _); apply gives_ret; exact I.
  Qed.
  Lemma c_field : gives (fun f => calm (outField f)) (pField L).
  Proof.
    unfold pField. eapply gives_then; [apply gives_any|]. intros neg _. eapply gives_then; [apply c_path|]. intros a Ha.
    eapply gives_then; [apply gives_rep; eapply gives_then; [apply gives_any|intros; apply c_path]|]. intros l Hl. apply gives_ret.
    unfold outField. cbn [f_path]. apply calm_bind; [|intros; exact I]. assert (Forall (fun p => calm (outOnePath p)) (a :: l)) as H by (constructor; auto). revert H. generalize (a :: l).
    clear. induction l as [|p l IH]; intro H; [exact I|]. inversion H; subst. cbn [outPath]. apply calm_bind; auto. intros. apply calm_bind; auto. intros. exact I.
  Qed.
  Lemma calm_mv : forall v, calm (outMathValue v).
  Proof. intros [n [z|] [f|]]; exact I. Qed.
  Lemma calm_mo : forall v, calm (outMathOp v).
  Proof. intros [[] [] [] [] []]; exact I. Qed.
  Lemma calm_value : forall v, calm (outValue v).
  Proof. intros [[m|] [s|]]; try exact I. cbn. apply calm_bind; [apply calm_mv|intros; exact I]. Qed.
  Lemma last_in : forall A (l : list A) a, lastOf l = Some a -> In a l.
  Proof.
    intros A l a. unfold lastOf. assert (forall (l : list A) z, fold_left (fun _ a => Some a) l z = Some a -> In a l \/ z = Some a) as H.
    { clear. induction l as [|b l IH]; intros z H; cbn [fold_left] in H; [now right|]. destruct (IH _ H) as [X|X]; [left; now right|]. inversion X; subst. left. now left. }
    intro E. destruct (H l None E); [assumption|discriminate].
  Qed.
  Lemma right_in : forall A B (l : list (A + B)) b, In b (rights l) -> In (inr b) l.
  Proof. induction l as [|[a|b] l IH]; intros c H; cbn [rights] in *; [destruct H|right; auto|]. destruct H as [-> |H]; [now left|right; auto]. Qed.
  Lemma c_math : gives (fun f => calm (outFieldWithMath f)) (pFieldWithMath L intOf floatOf).
  Proof.
    unfold pFieldWithMath. apply gives_alt. constructor; [|constructor; [|constructor; [|constructor]]].
    - eapply gives_map with (Q := fun t => calm (outType0 t)); [|auto]. unfold pType0. eapply gives_then; [apply gives_any|intros v _]. eapply gives_then; [apply gives_any|intros p _].
      eapply gives_then; [apply c_field|intros f Hf]. apply gives_ret. cbn. apply calm_bind; [apply calm_mo|intros]. apply calm_bind; [apply calm_mv|intros]. apply calm_bind; auto. intros. exact I.
    - eapply gives_map with (Q := fun t => calm (outType1 t)); [|auto]. unfold pType1. eapply gives_then; [apply c_field|intros f Hf].
      eapply gives_then with (Q := Forall (fun px => match snd px with inl _ => True | inr g => calm (outField g) end)).
      + apply gives_rep. eapply gives_then; [apply gives_any|intros p _]. eapply gives_then with (Q := fun x => match x with inl _ => True | inr g => calm (outField g) end); [|intros; now apply gives_ret].
        apply gives_alt. constructor; [|constructor; [|constructor]]; [eapply gives_map; [apply gives_any|auto]|eapply gives_map; [apply c_field|auto]].
      + intros l Hl. apply gives_ret. unfold outType1. cbn [t1_field t1_op t1_value t1_other].
        destruct (lastOf (map fst l)) as [p|]; [|exact Hf]. destruct (lastOf (lefts (map snd l))) as [v|].
        * apply calm_bind; [apply calm_mo|intros]. apply calm_bind; auto. intros. apply calm_bind; [apply calm_mv|intros; exact I].
        * destruct (lastOf (rights (map snd l))) as [g|] eqn:E; [|exact Hf]. apply calm_bind; [apply calm_mo|intros]. apply calm_bind; auto. intros.
          apply last_in, right_in, in_map_iff in E. destruct E as ([q y] & E1 & E2). cbn in E1. subst. rewrite Forall_forall in Hl. specialize (Hl _ E2). cbn in Hl.
          apply calm_bind; auto. intros. exact I.
    - eapply gives_map; [apply gives_any|]. intros; exact I.
  Qed.
  Lemma c_argument : forall sub, gives (fun f => calm (outConstFunc o x f)) sub -> gives (fun a => calm (outArgument o x a)) (pArgument L intOf floatOf sub).
  Proof.
    intros sub H. unfold pArgument. apply gives_alt. constructor; [eapply gives_map; [exact H|auto]|]. constructor; [eapply gives_map; [exact c_math|auto]|].
    constructor; [|constructor]. eapply gives_map; [apply gives_any|]. intros v _. cbn. apply calm_value.
  Qed.
  Lemma calm_n1 : forall f, calm (outName1 f).
  Proof. intro f. unfold outName1. repeat match goal with |- context [if ?b then _ else _] => destruct b; [exact I|] end. exact I. Qed.
  Lemma c_call : forall n, gives (fun f => calm (outConstFunc o x f)) (pConstFunc L intOf floatOf n).
  Proof.
    induction n as [|n IH]; [intros ts a r E; discriminate|]. cbn [pConstFunc]. unfold pConstFunc1. eapply gives_then; [apply gives_any|intros neg _].
    apply gives_alt. constructor; [|constructor; [|constructor; [|constructor]]].
    - eapply gives_map; [apply gives_any|]. intros a _. cbn. destruct a as [[[[[]|] [[]|]]|]]; exact I.
    - eapply gives_map with (Q := fun a => calm (outOneArg o x a)); [|intros a Ha; cbn; apply calm_bind; auto; intros; exact I].
      unfold pOneArg. eapply gives_then; [apply gives_any|intros nm _]. eapply gives_then; [apply gives_any|intros _ _]. eapply gives_then; [apply c_argument, IH|intros a Ha].
      eapply gives_then; [apply gives_any|intros _ _]. apply gives_ret. cbn [outOneArg]. apply calm_bind; [apply calm_n1|intros]. apply calm_bind; auto. intros.
      destruct a as [s f [v|]]; [|exact I]. destruct (isSet (nm NDate) && negb (validTime o (strValue x v))); exact I.
    - eapply gives_map with (Q := fun a => calm (outTwoArgs o x a)); [|intros a Ha; cbn; apply calm_bind; auto; intros; exact I].
      unfold pTwoArgs. eapply gives_then; [apply gives_any|intros nm _]. eapply gives_then; [apply gives_any|intros _ _]. eapply gives_then; [apply c_argument, IH|intros a Ha].
      eapply gives_then; [apply gives_any|intros _ _]. eapply gives_then; [apply c_argument, IH|intros b Hb]. eapply gives_then; [apply gives_any|intros _ _].
      apply gives_ret. cbn [outTwoArgs]. apply calm_bind; [destruct nm as [[[]|] [[]|]]; exact I|intros]. apply calm_bind; auto. intros. apply calm_bind; auto. intros. exact I.
  Qed.
  Lemma calm_boolean : forall b v, calm (outBoolean b v).
  Proof. intros b v. unfold outBoolean. destruct (isSet (b_T b) || isSet (b_T1 b) || isSet (b_F b) || isSet (b_F1 b)); [|exact I]. destruct (getBool b); exact I. Qed.
  Lemma c_booleanExpr : forall n, gives (fun b => calm (outBooleanExpr o x b)) (pBooleanExpr L intOf floatOf n).
  Proof.
    intro n. unfold pBooleanExpr. apply gives_alt. constructor; [eapply gives_map; [apply gives_any|intros; apply calm_boolean]|]. constructor; [|constructor].
    eapply gives_map with (Q := fun b => calm (outBooleanFunc o x b)); [|auto]. unfold pBooleanFunc. apply gives_alt. constructor; [|constructor; [|constructor]].
    - eapply gives_map with (Q := fun b => calm (outBoolTwoArgs o x b)); [|auto]. unfold pBoolTwoArgs. eapply gives_then; [apply gives_any|intros nm _]. eapply gives_then; [apply gives_any|intros _ _].
      eapply gives_then; [apply c_argument, c_call|intros a Ha]. eapply gives_then; [apply gives_any|intros _ _]. eapply gives_then; [apply gives_any|intros b _].
      eapply gives_then; [apply gives_any|intros _ _]. apply gives_ret. cbn. destruct (isTrue (bn_regex nm)); [|exact I]. apply calm_bind; auto. intros.
      apply calm_bind; [|intros; exact I]. unfold outRegex. destruct (ar_value b) as [v|]; [|exact I]. destruct (tokenIsPcre (strValue x v)); [destruct (x_pcre x)|]; exact I.
    - eapply gives_map with (Q := fun b => calm (outExists b)); [|auto]. unfold pExists. do 2 (eapply gives_then; [apply gives_any|intros _ _]). eapply gives_then; [apply c_field|intros f Hf].
      eapply gives_then; [apply gives_any|intros _ _]. apply gives_ret. cbn. apply calm_bind; auto. intros. exact I.
  Qed.
  Lemma c_sdFunc : forall n, gives (fun s => calm (outSide o x s)) (sdFunc L intOf floatOf n).
  Proof. intro. eapply gives_map; [apply c_call|auto]. Qed.
  Lemma c_sdBool : gives (fun s => calm (outSide o x s)) (sdBool L).
  Proof. eapply gives_map; [apply gives_any|intros; apply calm_boolean]. Qed.
  Lemma c_sdField : gives (fun s => calm (outSide o x s)) (sdField L intOf floatOf).
  Proof. eapply gives_map; [apply c_math|auto]. Qed.
  Lemma c_sdValue : gives (fun s => calm (outSide o x s)) (sdValue L intOf floatOf).
  Proof. eapply gives_map; [apply gives_any|intros; apply calm_value]. Qed.
  Lemma calm_compare : forall p l r, calm (outCompareOp p l r).
  Proof. intros p l r. unfold outCompareOp. repeat match goal with |- context [if ?b then _ else _] => destruct b; [exact I|] end. exact I. Qed.
  Lemma calm_check : forall c e, calm (outCheckOp c e).
  Proof. intros c e. unfold outCheckOp. repeat match goal with |- context [if ?b then _ else _] => destruct b; [exact I|] end. exact I. Qed.
  Lemma c_operand : forall n, gives (fun p => calm (outOperand o x p)) (pOperand L intOf floatOf n).
  Proof.
    intro n. unfold pOperand. apply gives_alt. constructor; [eapply gives_map; [apply c_booleanExpr|auto]|]. constructor; [|constructor].
    eapply gives_then; [unfold pLhs; apply gives_alt; repeat (apply Forall_cons; [first [apply c_sdFunc|apply c_sdBool|apply c_sdField|apply c_sdValue]|]); apply Forall_nil|]. intros l Hl.
    apply gives_alt. constructor; [|constructor; [|constructor]].
    - eapply gives_then; [apply gives_any|intros p _].
      eapply gives_then; [unfold pRhs; apply gives_alt; repeat (apply Forall_cons; [first [apply c_sdFunc|apply c_sdBool|apply c_sdField|apply c_sdValue]|]); apply Forall_nil|]. intros r Hr.
      apply gives_ret. cbn. apply calm_bind; auto. intros. apply calm_bind; auto. intros. apply calm_compare.
    - eapply gives_map; [apply gives_any|]. intros c _. cbn. apply calm_bind; auto. intros. apply calm_check.
  Qed.
  Lemma c_condition : forall n, gives (fun c => calm (outCondition o x c)) (pCondition L intOf floatOf n).
  Proof.
    induction n as [|n IH]; [intros ts a r E; discriminate|]. cbn [pCondition]. apply gives_alt. constructor; [|constructor; [|constructor]].
    - eapply gives_then; [apply gives_any|intros _ _]. eapply gives_map; [exact IH|]. intros c Hc. cbn [outCondition]. apply calm_bind; auto. intros; exact I.
    - eapply gives_map; [apply c_operand|auto].
  Qed.
  Definition goAll {A : Type} (f : A -> outcome expr) : list A -> outcome (list expr) :=
    fix go l := match l with [] => Ok [] | a :: r => do e <- f a; do es <- go r; Ok (e :: es) end.
  Lemma calm_all : forall A (f : A -> outcome expr) l, Forall (fun a => calm (f a)) l -> calm (goAll f l).
  Proof. induction l as [|p l IH]; intro H; [exact I|]. inversion H; subst. cbn [goAll]. apply calm_bind; auto. intros. apply calm_bind; auto. intros. exact I. Qed.
  Lemma c_inner : forall n, gives (fun i => calm (outInner o x i)) (pInner L intOf floatOf n).
  Proof.
    induction n as [|n IH]; [intros ts a r E; discriminate|]. cbn [pInner].
    assert (gives (fun i => calm (outSub o x i)) (pSub L intOf floatOf (S n) (pInner L intOf floatOf n))) as Hsub.
    { unfold pSub. apply gives_alt. constructor; [|constructor; [|constructor]].
      - eapply gives_then; [apply gives_any|intros _ _]. eapply gives_then; [exact IH|intros i Hi]. eapply gives_then; [apply gives_any|intros _ _]. now apply gives_ret.
      - eapply gives_map; [apply c_condition|auto]. }
    assert (gives (fun i => calm (outInnerAnd o x i)) (pInnerAnd L intOf floatOf (S n) (pInner L intOf floatOf n))) as Hand.
    { unfold pInnerAnd. eapply gives_then; [exact Hsub|intros a Ha]. eapply gives_then; [apply gives_rep; eapply gives_then; [apply gives_any|intros _ _; exact Hsub]|intros l Hl].
      apply gives_ret. change (calm (do es <- goAll (outSub o x) (a :: l); Ok (XAnd es))). apply calm_bind; [|intros; exact I]. apply calm_all. constructor; auto. }
    eapply gives_then; [exact Hand|intros a Ha]. eapply gives_then; [apply gives_rep; eapply gives_then; [apply gives_any|intros _ _; exact Hand]|intros l Hl].
    apply gives_ret. change (calm (do es <- goAll (outInnerAnd o x) (a :: l); Ok (XOr es))). apply calm_bind; [|intros; exact I]. apply calm_all. constructor; auto.
  Qed.
  Lemma parse_calm : forall ts t, parseTokens L intOf floatOf ts = Ok t -> calm (outputExpression o x t).
  Proof.
    intros ts t E. unfold parseTokens in E. destruct (pInner L intOf floatOf (S (length ts)) ts) as [|r|i [|? ?]|] eqn:X; inversion E; subst. cbn. eapply c_inner; eauto.
  Qed.
End Lib.
