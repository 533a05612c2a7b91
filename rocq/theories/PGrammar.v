(** Reading back the tokens of a text filter. *)
From Coq Require Import String.
From Verif Require Import Base MTokenizer MLit MFastVal MMath MExpr MTransform MText SText MGrammar SGrammar.
From Coq Require Import List NArith ZArith Arith Lia Bool.
From Coq Require Import Floats.SpecFloat.
Import ListNotations.
Open Scope string_scope.
Open Scope list_scope.
Open Scope nat_scope.

(** ** Words *)
Lemma lit_eq : forall s k r, pLit s (Tk k (s2b s) :: r) = POk tt r.
Proof. intros. unfold pLit. cbn [tk_text]. now rewrite bytes_eqb_refl. Qed.
Lemma avoids_in : forall l t r s, avoids l (t :: r) = true -> In s l -> bytes_eqb (tk_text t) (s2b s) = false.
Proof.
  intros l t r s H Hin. cbn [avoids] in H. apply negb_true_iff in H. destruct (bytes_eqb (tk_text t) (s2b s)) eqn:E; auto.
  rewrite <- H. symmetry. apply existsb_exists. eauto.
Qed.
Lemma lit_no : forall l s ts, avoids l ts = true -> In s l -> pLit s ts = PNone.
Proof. intros l s [|t r] H Hin; [reflexivity|]. unfold pLit. now rewrite (avoids_in _ _ _ _ H Hin). Qed.
Lemma flag_no : forall l s ts, avoids l ts = true -> In s l -> pFlag s ts = PNone.
Proof. intros. unfold pFlag, pmap. erewrite lit_no; eauto. Qed.
Lemma flag_eq : forall s k r, pFlag s (Tk k (s2b s) :: r) = POk (Some true) r.
Proof. intros. unfold pFlag, pmap. now rewrite lit_eq. Qed.
Lemma avoids_sub : forall l l' ts, avoids l ts = true -> (forall s, In s l' -> In s l) -> avoids l' ts = true.
Proof.
  intros l l' [|t r] H Hs; [reflexivity|]. cbn [avoids]. apply negb_true_iff. destruct (existsb _ l') eqn:E; auto.
  apply existsb_exists in E. destruct E as (s & Hi & He). rewrite (avoids_in _ _ _ _ H (Hs _ Hi)) in He. discriminate.
Qed.
Ltac inl_ := cbn [In]; repeat (first [left; reflexivity | right]); fail.
Ltac sub_ := let s := fresh in let H := fresh in intros s H; cbn in H |- *; repeat (destruct H as [H|H]; [subst s; clear; repeat (first [left; reflexivity | right])|]); destruct H.

Definition noCall (l : list string) (ts : list token) : bool := match ts with [] => true | t :: r => avoids l [t] || avoids ["("] r end.
Definition fieldEnd := ["["; "("; "."; "+"; "-"; "*"; "/"; "%"].
Definition noArgNames := ["PI"; "E"].
Definition oneArgNames := ["ABS"; "ACOS"; "ASIN"; "ATAN"; "CEIL"; "COS"; "DATE"; "DEGREES"; "EXP"; "FLOOR"; "LOG"; "LN"; "SIN"; "TAN"; "RADIANS"; "ROUND"; "SQRT"].
Definition twoArgNames := ["ATAN2"; "POW"].
Definition fnNames := noArgNames ++ oneArgNames ++ twoArgNames.

(** ** Combinators *)
Lemma then_ok : forall A B (p : parser A) (k : A -> parser B) ts a r b r', p ts = POk a r -> k a r = POk b r' -> pthen p k ts = POk b r'.
Proof. intros. unfold pthen. rewrite H, H0. reflexivity. Qed.
Lemma then_no : forall A B (p : parser A) (k : A -> parser B) ts a r, p ts = POk a r -> k a r = PNone \/ k a r = PFail r -> pthen p k ts = PFail r.
Proof. intros * H [H0|H0]; unfold pthen; rewrite H, H0; reflexivity. Qed.
Lemma then_none : forall A B (p : parser A) (k : A -> parser B) ts, p ts = PNone -> pthen p k ts = PNone.
Proof. intros. unfold pthen. now rewrite H. Qed.
Lemma then_fail : forall A B (p : parser A) (k : A -> parser B) ts r, p ts = PFail r -> pthen p k ts = PFail r.
Proof. intros. unfold pthen. now rewrite H. Qed.
Lemma map_ok : forall A B (f : A -> B) (p : parser A) ts a r b, p ts = POk a r -> f a = b -> pmap f p ts = POk b r.
Proof. intros. unfold pmap. now rewrite H, H0. Qed.

Section Lib.
  Variable L : lib.
  Hypothesis look1 : 1 <= l_look L.
  (** Not matching, or failing near enough. *)
  Definition no {A : Type} (p : parser A) (ts : list token) : Prop := p ts = PNone \/ exists x, p ts = PFail x /\ length ts <= l_look L + length x.
  Lemma no_map : forall A B (f : A -> B) (p : parser A) ts, no p ts -> no (pmap f p) ts.
  Proof. intros * [H|(x & H & HL)]; [left|right; exists x; split; auto]; unfold pmap; now rewrite H. Qed.
  Lemma no_then : forall A B (p : parser A) (k : A -> parser B) ts, no p ts -> no (pthen p k) ts.
  Proof. intros * [H|(x & H & HL)]; [left|right; exists x; split; auto]; unfold pthen; now rewrite H. Qed.
  Lemma no_fail : forall A (p : parser A) ts x, p ts = PFail x -> length ts <= S (length x) -> no p ts.
  Proof. intros. right. exists x. split; auto. lia. Qed.
  Lemma alt_ok : forall A fl (p : parser A) ps ts a x, p ts = POk a x -> pAlts L fl (p :: ps) ts = POk a x.
  Proof. intros. cbn [pAlts]. now rewrite H. Qed.
  Lemma alt_no : forall A fl (p : parser A) ps ts, no p ts -> exists fl', pAlts L fl (p :: ps) ts = pAlts L fl' ps ts.
  Proof.
    intros * [H|(x & H & HL)]; cbn [pAlts]; rewrite H; [eauto|]. exists true. unfold tooFar.
    destruct (l_look L <? length ts - length x) eqn:E; auto. apply Nat.ltb_lt in E. lia.
  Qed.
  Lemma alt_none : forall A fl (p : parser A) ps ts, p ts = PNone -> pAlts L fl (p :: ps) ts = pAlts L fl ps ts.
  Proof. intros. cbn [pAlts]. now rewrite H. Qed.
  Lemma alts_no : forall A (ps : list (parser A)) fl ts, Forall (fun p => no p ts) ps -> pAlts L fl ps ts = PNone \/ pAlts L fl ps ts = PFail ts.
  Proof.
    induction ps as [|p ps IH]; intros fl ts H; [cbn [pAlts]; destruct (fl && l_keep L); auto|]. inversion H; subst.
    destruct (alt_no A fl p ps ts H2) as [fl' ->]. auto.
  Qed.
  Lemma alt_all_no : forall A (ps : list (parser A)) ts, Forall (fun p => no p ts) ps -> pAlt L ps ts = PNone \/ pAlt L ps ts = PFail ts.
  Proof. intros. now apply alts_no. Qed.
  Lemma no_alt : forall A (ps : list (parser A)) ts, Forall (fun p => no p ts) ps -> no (pAlt L ps) ts.
  Proof. intros. destruct (alt_all_no A ps ts H) as [E|E]; [now left|]. right. exists ts. split; auto. lia. Qed.
  Lemma opt_none : forall A (p : parser A) ts, p ts = PNone -> pOpt L p ts = POk None ts.
  Proof. intros. unfold pOpt. now rewrite H. Qed.
  Lemma opt_ok : forall A (p : parser A) ts a r, p ts = POk a r -> pOpt L p ts = POk (Some a) r.
  Proof. intros. unfold pOpt. now rewrite H. Qed.

  Lemma reps_stop : forall A n (p : parser A) ts, p ts = PNone -> pReps L (S n) p ts = POk [] ts.
  Proof. intros. cbn [pReps]. now rewrite H. Qed.
  Lemma rep_stop : forall A (p : parser A) ts, p ts = PNone -> pRep L p ts = POk [] ts.
  Proof. intros. unfold pRep. now apply reps_stop. Qed.
  Lemma reps_list : forall X A (w : X -> list token) (t : X -> A) (p : parser A) (Q : list token -> Prop) xs rest n,
    (forall x r, In x xs -> length (w x ++ r) <= length (flat_map w xs ++ rest) -> Q r -> p (w x ++ r) = POk (t x) r) ->
    (forall x r, In x xs -> Q (w x ++ r)) -> (forall x, 1 <= length (w x)) ->
    Q rest -> p rest = PNone -> length (flat_map w xs ++ rest) < n -> pReps L n p (flat_map w xs ++ rest) = POk (map t xs) rest.
  Proof.
    intros X A w t p Q xs. induction xs as [|x xs IH]; intros rest n H HQ HN Hr Hp Hl.
    - destruct n as [|n]; [lia|]. now apply reps_stop.
    - destruct n as [|n]; [lia|]. cbn [flat_map map] in *. rewrite <- app_assoc in *. cbn [pReps].
      assert (Q (flat_map w xs ++ rest)) as HF.
      { destruct xs as [|y ys]; [exact Hr|]. cbn [flat_map]. rewrite <- app_assoc. apply HQ. right. now left. }
      rewrite (H x); auto; [|now left]. unfold pmap. pose proof (HN x) as Hx. rewrite app_length in Hl. rewrite IH; auto.
      + intros y r Hy Hyl. apply H; [now right|]. rewrite (app_length (w x)). lia.
      + intros y r Hy. apply HQ. now right.
      + lia.
  Qed.
  Lemma rep_list : forall X A (w : X -> list token) (t : X -> A) (p : parser A) (Q : list token -> Prop) xs rest,
    (forall x r, In x xs -> length (w x ++ r) <= length (flat_map w xs ++ rest) -> Q r -> p (w x ++ r) = POk (t x) r) ->
    (forall x r, In x xs -> Q (w x ++ r)) -> (forall x, 1 <= length (w x)) ->
    Q rest -> p rest = PNone -> pRep L p (flat_map w xs ++ rest) = POk (map t xs) rest.
  Proof. intros. unfold pRep. eapply reps_list; eauto. Qed.

  (** ** Signs *)
  Fixpoint dropMinus (ts : list token) : list token :=
    match ts with t :: r => if bytes_eqb (tk_text t) (s2b "-") then dropMinus r else ts | [] => [] end.
  Definition hasMinus (ts : list token) : bool := match ts with t :: _ => bytes_eqb (tk_text t) (s2b "-") | [] => false end.
  Lemma minus_reps : forall ts n, length ts < n -> exists l, pReps L n (pLit "-") ts = POk l (dropMinus ts) /\ (l = [] <-> hasMinus ts = false).
  Proof.
    induction ts as [|t ts IH]; intros [|n] H; try (cbn [length] in H; lia).
    - exists []. split; [reflexivity|]. cbn. tauto.
    - cbn [pReps dropMinus hasMinus]. unfold pLit at 1. destruct (bytes_eqb (tk_text t) (s2b "-")) eqn:E.
      + destruct (IH n) as (l & El & _); [cbn [length] in H; lia|]. exists (tt :: l). unfold pmap. rewrite El. split; [reflexivity|]. split; discriminate.
      + exists []. split; [reflexivity|tauto].
  Qed.
  Lemma minus_gen : forall ts, pMinus L ts = POk (flag (hasMinus ts)) (dropMinus ts).
  Proof.
    intro ts. unfold pMinus, pmap, pRep. destruct (minus_reps ts (S (length ts))) as (l & -> & Hl); [lia|]. f_equal.
    destruct l, (hasMinus ts); try reflexivity; [discriminate (proj1 Hl eq_refl)|discriminate (proj2 Hl eq_refl)].
  Qed.
  Lemma drop_minus : forall neg x, avoids ["-"] x = true -> dropMinus (minus neg ++ x) = x /\ hasMinus (minus neg ++ x) = neg.
  Proof.
    intros neg x H. assert (dropMinus x = x /\ hasMinus x = false) as [H1 H2].
    { destruct x as [|t r]; [auto|]. cbn [dropMinus hasMinus]. rewrite (avoids_in _ _ _ "-" H); [auto|now left]. }
    destruct neg; cbn [minus app]; [|auto]. split; [|reflexivity]. cbn [dropMinus]. exact H1.
  Qed.
  Lemma minus_w : forall neg x, avoids ["-"] x = true -> pMinus L (minus neg ++ x) = POk (flag neg) x.
  Proof. intros neg x H. rewrite minus_gen. destruct (drop_minus neg x H) as [-> ->]. reflexivity. Qed.

  Variable intOf : bytes -> option Z.
  Variable floatOf : bytes -> option float.
  Variable ftxt : float -> bytes.
  Notation pMathValue := (pMathValue L intOf floatOf).
  Notation pValue := (pValue L intOf floatOf).
  Notation pType0 := (pType0 L intOf floatOf).
  Notation pType1 := (pType1 L intOf floatOf).
  Notation pFieldWithMath := (pFieldWithMath L intOf floatOf).
  Notation pArgument := (pArgument L intOf floatOf).
  Notation pConstFunc := (pConstFunc L intOf floatOf).
  Notation pArgumentRHS := (pArgumentRHS L intOf floatOf).
  Notation pBooleanExpr := (pBooleanExpr L intOf floatOf).
  Notation pLhs := (pLhs L intOf floatOf).
  Notation pRhs := (pRhs L intOf floatOf).
  Notation pOperand := (pOperand L intOf floatOf).
  Notation pCondition := (pCondition L intOf floatOf).
  Notation pSub := (pSub L intOf floatOf).
  Notation pInnerAnd := (pInnerAnd L intOf floatOf).
  Notation pInner := (pInner L intOf floatOf).
  Notation numSafe := (numSafe ftxt intOf floatOf).
  Notation valueSafe := (valueSafe ftxt intOf floatOf).
  Notation mathSafe := (mathSafe ftxt intOf floatOf).
  Notation bareValue := (bareValue ftxt intOf floatOf (l_look L)).
  Notation callSafe := (callSafe ftxt intOf floatOf (l_look L)).
  Notation argSafe := (argSafe ftxt intOf floatOf (l_look L)).
  Notation lhsSafe := (lhsSafe ftxt intOf floatOf (l_look L)).
  Notation rhsSafe := (rhsSafe ftxt intOf floatOf (l_look L)).
  Notation basicSafe := (basicSafe ftxt intOf floatOf (l_look L)).

  (** ** Numbers and strings *)
  Definition noNum (ts : list token) : bool := match ts with t :: _ => negb (kind_eqb (tk_kind t) KInt || kind_eqb (tk_kind t) KFloat) | [] => true end.
  Lemma mathValue_no : forall ts, noNum (dropMinus ts) = true -> pMathValue ts = PFail (dropMinus ts).
  Proof.
    intros ts H. unfold MGrammar.pMathValue. eapply then_no; [apply minus_gen|]. left. apply then_none.
    unfold pAlt. destruct (dropMinus ts) as [|t r]; [reflexivity|]. cbn [noNum] in H. apply negb_true_iff, orb_false_elim in H. destruct H as [H1 H2].
    rewrite alt_none; [|unfold pmap, pKind; now rewrite H1]. rewrite alt_none; [|unfold pmap, pKind; now rewrite H2]. reflexivity.
  Qed.
  Lemma num_ok : forall n r, numSafe n -> pMathValue (wNum ftxt n ++ r) = POk (tNum n) r.
  Proof.
    intros n r H. unfold MGrammar.pMathValue. destruct n as [neg z|neg f]; cbn [SGrammar.numSafe wNum] in *; destruct H as [H1 H2]; rewrite <- app_assoc; cbn [app];
      (eapply then_ok; [apply minus_w; cbn [avoids existsb tk_text]; apply bytes_eqb_neq in H2; now rewrite H2|]).
    - eapply then_ok; [unfold pAlt; apply alt_ok; reflexivity|]. cbn [tk_text]. now rewrite H1.
    - eapply then_ok; [unfold pAlt; rewrite alt_none; [apply alt_ok; reflexivity|reflexivity]|]. cbn [tk_text]. now rewrite H1.
  Qed.
  Lemma drop_none : forall r, avoids ["-"] r = true -> dropMinus r = r.
  Proof. intros r H. apply (drop_minus false r H). Qed.
  Lemma drop_str : forall k s r, avoids ["-"] r = true -> dropMinus (Tk k s :: r) = r /\ s = s2b "-" \/ dropMinus (Tk k s :: r) = Tk k s :: r /\ avoids ["-"] (Tk k s :: r) = true.
  Proof.
    intros k s r H. cbn [dropMinus tk_text avoids existsb]. destruct (bytes_eqb s (s2b "-")) eqn:E; [left|right]; [|auto].
    apply bytes_eqb_eq in E. split; auto. now apply drop_none.
  Qed.
  Lemma value_ok : forall v r, valueSafe v -> noNum r = true -> avoids ["-"] r = true -> pValue (wValue ftxt v ++ r) = POk (tValue v) r.
  Proof.
    intros [n|s] r H HN HM; cbn [wValue tValue SGrammar.valueSafe] in *; unfold MGrammar.pValue, pAlt.
    - apply alt_ok. eapply map_ok; [now apply num_ok|reflexivity].
    - cbn [app]. edestruct (alt_no _ false (pmap (fun m => {| v_math := Some m; v_str := None |}) pMathValue)) as [fl ->].
      + apply no_map. destruct (drop_str KString s r HM) as [[E _]|[E _]]; (eapply no_fail; [apply mathValue_no; rewrite E; auto|rewrite E; cbn [length]; lia]).
      + apply alt_ok. reflexivity.
  Qed.

  (** ** Paths *)
  Lemma idx_ok : forall i r, pArrayIndex (wIdx i ++ r) = POk i r.
  Proof. intros. reflexivity. Qed.
  Lemma stype_ok : forall n r, n <> NMeta -> pStringType L (wName n ++ r) = POk (match n with NIdent b => {| st_char := []; st_raw := []; st_ident := b |} | NRaw b => {| st_char := []; st_raw := b; st_ident := [] |} | NChar b => {| st_char := b; st_raw := []; st_ident := [] |} | NMeta => {| st_char := []; st_raw := []; st_ident := [] |} end) r.
  Proof. intros [b|b|b|] r H; try reflexivity. congruence. Qed.
  Lemma pathFunc_no : forall t r, noCall ["META"] (t :: r) = true -> no pPathFunc (t :: r).
  Proof.
    intros t r H. unfold pPathFunc. cbn [noCall] in H. destruct (bytes_eqb (tk_text t) (s2b "META")) eqn:E.
    - assert (avoids ["META"] [t] = false) as H1 by (cbn [avoids existsb]; now rewrite E). rewrite H1 in H. cbn [orb] in H.
      eapply no_fail; [|apply le_n]. eapply then_no; [|left].
      + eapply map_ok; [|reflexivity]. unfold pFlag. eapply map_ok; [|reflexivity]. unfold pLit. now rewrite E.
      + apply then_none. eapply lit_no; [exact H|now left].
    - left. apply then_none. unfold pFlag, pmap, pLit. now rewrite E.
  Qed.
  Lemma path_ok : forall s r, avoids ["["; "("] r = true -> pOnePath L (wSeg s ++ r) = POk (tSeg s) r.
  Proof.
    intros [n l] r H. unfold pOnePath, wSeg. cbn [s_name s_idx]. rewrite <- app_assoc.
    assert (pRep L pArrayIndex (flat_map wIdx l ++ r) = POk l r) as HL.
    { rewrite <- (map_id l) at 2. apply rep_list with (Q := fun _ => True).
      - intros. apply idx_ok.
      - auto.
      - intro. cbn. lia.
      - auto.
      - unfold pArrayIndex. apply then_none. eapply lit_no; [exact H|now left]. }
    assert (avoids ["("] (flat_map wIdx l ++ r) = true) as HA.
    { destruct l as [|i l]; [|reflexivity]. eapply avoids_sub; [exact H|sub_]. }
    destruct n as [b|b|b|].
    4:{ eapply then_ok; [unfold pAlt; apply alt_ok; reflexivity|]. eapply then_ok; [exact HL|]. reflexivity. }
    all: cbn [wName app]; edestruct (alt_no _ false (pmap (@inl _ feStringType) pPathFunc) [pmap inr (pStringType L)]) as [fl E];
      [apply no_map, pathFunc_no; cbn [noCall]; rewrite HA; apply orb_true_r|]; eapply then_ok; [unfold pAlt; rewrite E; apply alt_ok; reflexivity|];
      (eapply then_ok; [exact HL|]); reflexivity.
  Qed.
  Definition pathEnd := ["["; "("; "."].
  Lemma field_ok : forall f r, fieldSafe f -> avoids pathEnd r = true -> pField L (wField f ++ r) = POk (tField f) r.
  Proof.
    intros [neg a l] r H HA. unfold fieldSafe in H. unfold pField, wField, tField. cbn [fl_neg fl_first fl_rest map] in *. rewrite <- !app_assoc.
    eapply then_ok; [apply minus_w; destruct a as [[b|b|b|] i]; exact H|].
    assert (avoids ["["; "("] (flat_map (fun s => sym "." :: wSeg s) l ++ r) = true) as HB.
    { destruct l; [|reflexivity]. eapply avoids_sub; [exact HA|sub_]. }
    eapply then_ok; [now apply path_ok|]. eapply then_ok; [|reflexivity].
    apply rep_list with (Q := fun r => avoids ["["; "("] r = true).
    - intros s r' _ _ Hr. cbn [app]. eapply then_ok; [apply lit_eq|]. now apply path_ok.
    - reflexivity.
    - intro. cbn. lia.
    - eapply avoids_sub; [exact HA|sub_].
    - apply then_none. eapply lit_no; [exact HA|]. cbn. tauto.
  Qed.
  (** What is not a path. *)
  Definition noPath (ts : list token) : bool :=
    match ts with t :: _ => negb (kind_eqb (tk_kind t) KChar || kind_eqb (tk_kind t) KRaw || kind_eqb (tk_kind t) KIdent) && noCall ["META"] ts | [] => true end.
  Lemma path_no : forall ts, noPath ts = true -> pOnePath L ts = PNone \/ pOnePath L ts = PFail ts.
  Proof.
    intros [|t r] H; [left; reflexivity|]. unfold noPath in H. apply andb_true_iff in H. destruct H as [HK HM]. apply negb_true_iff, orb_false_elim in HK. destruct HK as [HK K3].
    apply orb_false_elim in HK. destruct HK as [K1 K2]. unfold pOnePath.
    edestruct (alt_all_no _ [pmap inl pPathFunc; pmap inr (pStringType L)] (t :: r)) as [E|E].
    - constructor; [now apply no_map, pathFunc_no|]. constructor; [|constructor]. apply no_map. left. unfold pStringType, pAlt, pKind.
      rewrite alt_none; [|unfold pmap; now rewrite K1]. rewrite alt_none; [|unfold pmap; now rewrite K2]. rewrite alt_none; [|unfold pmap; now rewrite K3]. reflexivity.
    - left. now apply then_none.
    - right. now apply then_fail.
  Qed.
  Lemma field_no : forall ts, noPath (dropMinus ts) = true -> pField L ts = PFail (dropMinus ts).
  Proof.
    intros ts H. unfold pField. eapply then_no; [apply minus_gen|]. destruct (path_no _ H) as [E|E]; [left; now apply then_none|right; now apply then_fail].
  Qed.
  Lemma mathOp_no : forall ts, avoids fieldEnd ts = true -> pMathOp L ts = PNone.
  Proof.
    intros ts H. unfold pMathOp, pAlt. repeat (rewrite alt_none; [|unfold pmap at 1; erewrite flag_no; [reflexivity|exact H|cbn; tauto]]). reflexivity.
  Qed.
  Lemma mathOp_ok : forall p r, pMathOp L (aopSym p :: r) = POk (tAop p) r.
  Proof. intros [] r; reflexivity. Qed.


  (** ** Arithmetic *)
  Lemma rep_one : forall A (p : parser A) ts a r, p ts = POk a r -> p r = PNone -> length r < length ts -> pRep L p ts = POk [a] r.
  Proof. intros. unfold pRep. cbn [pReps]. rewrite H. unfold pmap. destruct ts; [cbn in H1; lia|]. cbn [length]. now rewrite reps_stop. Qed.
  Lemma type0_ok : forall n p f r, numSafe n -> fieldSafe f -> avoids pathEnd r = true ->
    pType0 (wMath ftxt (FNumL n p f) ++ r) = POk {| t0_value := Some (tNum n); t0_op := Some (tAop p); t0_field := Some (tField f) |} r.
  Proof.
    intros. cbn [wMath]. rewrite <- app_assoc. cbn [app]. unfold MGrammar.pType0. eapply then_ok; [now apply num_ok|]. eapply then_ok; [apply mathOp_ok|].
    eapply then_ok; [now apply field_ok|reflexivity].
  Qed.
  Lemma type0_no : forall ts, noNum (dropMinus ts) = true -> pType0 ts = PFail (dropMinus ts).
  Proof. intros. unfold MGrammar.pType0. apply then_fail. now apply mathValue_no. Qed.
  Lemma type0_num : forall n r, numSafe n -> avoids fieldEnd r = true -> pType0 (wNum ftxt n ++ r) = PFail r.
  Proof. intros. unfold MGrammar.pType0. eapply then_no; [now apply num_ok|]. left. apply then_none. now apply mathOp_no. Qed.
  Lemma end_path : forall r, avoids fieldEnd r = true -> avoids pathEnd r = true.
  Proof. intros. eapply avoids_sub; [exact H|sub_]. Qed.
  Lemma aop_path : forall p r, avoids pathEnd (aopSym p :: r) = true.
  Proof. intros [] r; reflexivity. Qed.
  Lemma field_drop : forall f r, fieldSafe f -> dropMinus (wField f ++ r) = (wSeg (fl_first f) ++ flat_map (fun s => sym "." :: wSeg s) (fl_rest f)) ++ r /\ length (wField f ++ r) <= S (length (dropMinus (wField f ++ r))).
  Proof.
    intros [neg a l] r H. unfold fieldSafe, wField in *. cbn [fl_neg fl_first fl_rest] in *. rewrite <- app_assoc.
    assert (avoids ["-"] ((wSeg a ++ flat_map (fun s => sym "." :: wSeg s) l) ++ r) = true) as HA by (destruct a as [[b|b|b|] i]; exact H).
    destruct (drop_minus neg _ HA) as [-> _]. split; [reflexivity|]. destruct neg; cbn [minus app length]; lia.
  Qed.
  Lemma field_noNum : forall f r, fieldSafe f -> noNum (dropMinus (wField f ++ r)) = true.
  Proof. intros f r H. destruct (field_drop f r H) as [-> _]. destruct f as [neg [[b|b|b|] i] l]; reflexivity. Qed.
  Lemma seg_noCall : forall l s y, avoids ["("] y = true -> avoids l [word "META"] = true -> noCall l (wSeg s ++ y) = true.
  Proof.
    intros l [[b|b|b|] i] y H HM; unfold wSeg; cbn [s_name s_idx wName app noCall]; [..|now rewrite HM];
      (assert (avoids ["("] (flat_map wIdx i ++ y) = true) as -> by (destruct i; [exact H|reflexivity])); apply orb_true_r.
  Qed.
  Lemma field_noCall : forall l f r, fieldSafe f -> avoids ["("] r = true -> avoids l [word "META"] = true -> noCall l (dropMinus (wField f ++ r)) = true.
  Proof.
    intros l f r H HA HM. destruct (field_drop f r H) as [-> _]. rewrite <- app_assoc. apply seg_noCall; auto. destruct (fl_rest f); [exact HA|reflexivity].
  Qed.
  Lemma no_drop : forall A (p : parser A) ts, p ts = PFail (dropMinus ts) -> length ts <= S (length (dropMinus ts)) -> no p ts.
  Proof. intros. eapply no_fail; eauto. Qed.
  Lemma num_drop : forall n r, numSafe n -> exists t, dropMinus (wNum ftxt n ++ r) = t :: r /\ (tk_kind t = KInt \/ tk_kind t = KFloat) /\ length (wNum ftxt n ++ r) = (if negative (VNum n) then 2 else 1) + length r.
  Proof.
    intros n r H. destruct n as [neg z|neg f]; cbn [SGrammar.numSafe wNum negative] in *; destruct H as [_ H]; rewrite <- app_assoc; cbn [app];
      [exists (Tk KInt (appendInt z))|exists (Tk KFloat (ftxt f))];
      (split; [apply (drop_minus neg); cbn [avoids existsb tk_text]; apply bytes_eqb_neq in H; now rewrite H|]); (split; [cbn; auto|]);
      destruct neg; reflexivity.
  Qed.
  Lemma type1_ok : forall m r, mathSafe m -> avoids fieldEnd r = true -> (forall n p f, m <> FNumL n p f) -> exists t, pType1 (wMath ftxt m ++ r) = POk t r
    /\ tFmath m = {| fm_type0 := None; fm_type1 := Some t; fm_only := None |}.
  Proof.
    intros m r H HA HN. pose proof (end_path r HA) as HP.
    assert (forall r, avoids fieldEnd r = true -> pthen (pMathOp L) (fun p => pthen (pAlt L [pmap inl pMathValue; pmap inr (pField L)]) (fun x => pret (p, x))) r = PNone) as Hstop
      by (intros; apply then_none; now apply mathOp_no).
    destruct m as [f|n p f|f p n|f p g]; cbn [SGrammar.mathSafe wMath tFmath] in *; [|destruct (HN n p f eq_refl)|..]; try (match type of H with _ /\ _ => destruct H as [H1 H2] end).
    - eexists. split; [|reflexivity]. unfold MGrammar.pType1. eapply then_ok; [now apply field_ok|]. eapply then_ok; [apply rep_stop; now apply Hstop|reflexivity].
    - eexists. split; [|reflexivity]. rewrite <- app_assoc. cbn [app]. unfold MGrammar.pType1. eapply then_ok; [apply field_ok; auto; apply aop_path|].
      eapply then_ok.
      + eapply rep_one.
        * eapply then_ok; [apply mathOp_ok|]. eapply then_ok; [unfold pAlt; apply alt_ok; eapply map_ok; [now apply num_ok|reflexivity]|reflexivity].
        * now apply Hstop.
        * cbn [length]. rewrite app_length. lia.
      + reflexivity.
    - eexists. split; [|reflexivity]. rewrite <- app_assoc. cbn [app]. unfold MGrammar.pType1. eapply then_ok; [apply field_ok; auto; apply aop_path|].
      eapply then_ok.
      + eapply rep_one.
        * eapply then_ok; [apply mathOp_ok|]. eapply then_ok.
          -- unfold pAlt. edestruct (alt_no _ false (pmap (@inl _ feField) pMathValue) [pmap inr (pField L)] (wField g ++ r)) as [fl ->].
             ++ apply no_map. apply no_drop; [apply mathValue_no; now apply field_noNum|now apply field_drop].
             ++ apply alt_ok. eapply map_ok; [now apply field_ok|reflexivity].
          -- reflexivity.
        * now apply Hstop.
        * cbn [length]. rewrite app_length. lia.
      + reflexivity.
  Qed.
  Lemma math_ok : forall m r, mathSafe m -> avoids fieldEnd r = true -> pFieldWithMath (wMath ftxt m ++ r) = POk (tFmath m) r.
  Proof.
    intros m r H HA. unfold MGrammar.pFieldWithMath, pAlt.
    destruct m as [f|n p f|f p n|f p g].
    2:{ destruct H as [H1 H2]. apply alt_ok. eapply map_ok; [apply type0_ok; auto; now apply end_path|reflexivity]. }
    all: (destruct (type1_ok _ r H HA) as (t & Et & ->); [intros; discriminate|]);
      match goal with |- pAlts _ _ (?p :: ?ps) ?ts = _ => edestruct (alt_no _ false p ps ts) as [fl ->] end;
      [|apply alt_ok; eapply map_ok; [exact Et|reflexivity]]; apply no_map; cbn [SGrammar.mathSafe wMath] in *; try (match type of H with _ /\ _ => destruct H as [H1 H2] end); try rewrite <- app_assoc;
      (apply no_drop; [apply type0_no; now apply field_noNum|now apply field_drop]).
  Qed.
  Lemma math_drop : forall m r, mathSafe m -> avoids fieldEnd r = true ->
    noCall fnNames (dropMinus (wMath ftxt m ++ r)) = true /\ noCall ["REGEXP_CONTAINS"; "EXISTS"] (dropMinus (wMath ftxt m ++ r)) = true
    /\ length (wMath ftxt m ++ r) <= S (length (dropMinus (wMath ftxt m ++ r))).
  Proof.
    intros m r H HA. assert (avoids ["("] r = true) as HB by (eapply avoids_sub; [exact HA|sub_]).
    destruct m as [f|n p f|f p n|f p g]; cbn [SGrammar.mathSafe wMath] in *; try (match type of H with _ /\ _ => destruct H as [H1 H2] end); try rewrite <- app_assoc; cbn [app].
    - split; [now apply field_noCall|]. split; [now apply field_noCall|now apply field_drop].
    - destruct (num_drop n (aopSym p :: wField f ++ r) H1) as (t & -> & _ & ->). cbn [noCall length]. assert (avoids ["("] (aopSym p :: wField f ++ r) = true) as -> by (destruct p; reflexivity).
      rewrite !orb_true_r. split; auto. split; auto. destruct (negative _); lia.
    - assert (avoids ["("] (aopSym p :: wNum ftxt n ++ r) = true) by (destruct p; reflexivity). split; [now apply field_noCall|]. split; [now apply field_noCall|now apply field_drop].
    - assert (avoids ["("] (aopSym p :: wField g ++ r) = true) by (destruct p; reflexivity). split; [now apply field_noCall|]. split; [now apply field_noCall|now apply field_drop].
  Qed.
  (** A value is not a path with arithmetic. *)
  Lemma math_value_no : forall v r, bareValue v -> avoids fieldEnd r = true -> no pFieldWithMath (wValue ftxt v ++ r).
  Proof.
    intros v r (HS & HN & HM) HA. assert (avoids ["("] r = true) as HB by (eapply avoids_sub; [exact HA|sub_]).
    assert (noPath (dropMinus (wValue ftxt v ++ r)) = true /\ length (wValue ftxt v ++ r) <= S (length (dropMinus (wValue ftxt v ++ r)))) as [HP HL].
    { destruct v as [n|s]; cbn [wValue SGrammar.valueSafe] in *.
      - destruct (num_drop n r HS) as (t & -> & HK & ->). cbn [noPath noCall length]. rewrite HB, orb_true_r. destruct HK as [-> | ->]; cbn; split; auto; destruct n as [b z|b f]; destruct b; lia.
      - cbn [app]. assert (avoids ["-"] r = true) as HC by (eapply avoids_sub; [exact HA|sub_]). destruct (drop_str KString s r HC) as [[_ E]|[-> _]]; [congruence|].
        cbn [noPath noCall tk_kind kind_eqb orb negb andb]. rewrite HB, orb_true_r. split; [reflexivity|lia]. }
    unfold MGrammar.pFieldWithMath. apply no_alt. constructor; [|constructor; [|constructor; [|constructor]]]; apply no_map.
    - destruct v as [n|s]; cbn [wValue SGrammar.valueSafe] in *.
      + right. exists r. split; [now apply type0_num|]. destruct (num_drop n r HS) as (t & _ & _ & ->). destruct (negative _); [specialize (HN eq_refl); lia|lia].
      + apply no_drop; auto. apply type0_no. cbn [app]. assert (avoids ["-"] r = true) as HC by (eapply avoids_sub; [exact HA|sub_]).
        destruct (drop_str KString s r HC) as [[_ E]|[-> _]]; [congruence|reflexivity].
    - apply no_then. apply no_drop; auto. now apply field_no.
    - apply no_drop; auto. now apply field_no.
  Qed.

  (** ** Functions *)
  Definition headOnly {A : Type} (p : parser A) (t : token) (r : list token) : Prop := p (t :: r) = PNone \/ exists a, p (t :: r) = POk a r.
  Lemma flag_head : forall A (f : option bool -> A) s t r, headOnly (pmap f (pFlag s)) t r.
  Proof.
    intros. unfold headOnly, pFlag, pmap, pLit. destruct (bytes_eqb (tk_text t) (s2b s)); eauto.
  Qed.
  Lemma alts_head : forall A (ps : list (parser A)) t r, Forall (fun p => headOnly p t r) ps -> headOnly (pAlt L ps) t r.
  Proof.
    intros A ps t r H. unfold headOnly, pAlt. induction H as [|p ps [Hp|[a Hp]] HF IH]; [left; reflexivity|..].
    - now rewrite alt_none.
    - right. exists a. now apply alt_ok.
  Qed.
  Lemma call_no : forall A B (np : parser A) (k : A -> unit -> parser B) l t r, headOnly np t r -> (avoids l [t] = true -> np (t :: r) = PNone) ->
    noCall l (t :: r) = true -> no (pthen np (fun n => pthen (pLit "(") (k n))) (t :: r).
  Proof.
    intros A B np k l t r [Hn|[a Ha]] HA HC; [left; now apply then_none|]. cbn [noCall] in HC. apply orb_true_iff in HC. destruct HC as [HC|HC].
    - rewrite HA in Ha by auto. discriminate.
    - eapply no_fail; [|apply le_n]. eapply then_no; [exact Ha|]. left. apply then_none. eapply lit_no; [exact HC|now left].
  Qed.
  Lemma avoids_hd : forall l t r, avoids l [t] = true -> avoids l (t :: r) = true.
  Proof. intros. exact H. Qed.
  Ltac flags := repeat (apply Forall_cons; [apply flag_head|]); apply Forall_nil.
  Ltac nones H := unfold pAlt; repeat (rewrite alt_none; [|unfold pmap at 1; erewrite flag_no; [reflexivity|apply avoids_hd; exact H|cbn; tauto]]); reflexivity.
  Lemma noCall_sub : forall l l' ts, noCall l ts = true -> (forall s, In s l' -> In s l) -> noCall l' ts = true.
  Proof.
    intros l l' [|t r] H HS; [reflexivity|]. cbn [noCall] in *. apply orb_true_iff in H. destruct H as [H|H]; [|rewrite H; apply orb_true_r].
    rewrite (avoids_sub l l' [t] H HS). reflexivity.
  Qed.
  Lemma constFunc_no : forall n ts, noCall fnNames (dropMinus ts) = true -> pConstFunc (S n) ts = PFail (dropMinus ts).
  Proof.
    intros n ts H. cbn [MGrammar.pConstFunc]. unfold pConstFunc1. eapply then_no; [apply minus_gen|]. destruct (dropMinus ts) as [|t r]; [left; reflexivity|].
    apply alt_all_no. constructor; [|constructor; [|constructor; [|constructor]]]; apply no_map.
    - unfold pNoArg. apply call_no with (l := noArgNames); [apply alts_head; flags|intro HA; nones HA|eapply noCall_sub; [exact H|sub_]].
    - unfold pOneArg. apply call_no with (l := oneArgNames); [apply alts_head; unfold name1; flags|intro HA; unfold pOneArgName, name1; nones HA|eapply noCall_sub; [exact H|sub_]].
    - unfold pTwoArgs. apply call_no with (l := twoArgNames); [apply alts_head; flags|intro HA; unfold pTwoArgsName; nones HA|eapply noCall_sub; [exact H|sub_]].
  Qed.
  Lemma value_drop : forall l v r, valueSafe v -> noCall l r = true -> avoids ["("; "-"] r = true ->
    noCall l (dropMinus (wValue ftxt v ++ r)) = true /\ length (wValue ftxt v ++ r) <= S (length (dropMinus (wValue ftxt v ++ r))).
  Proof.
    intros l v r HS HC HA. assert (avoids ["("] r = true) as HB by (eapply avoids_sub; [exact HA|sub_]). assert (avoids ["-"] r = true) as HM by (eapply avoids_sub; [exact HA|sub_]).
    destruct v as [n|s]; cbn [wValue SGrammar.valueSafe] in *.
    - destruct (num_drop n r HS) as (t & -> & HK & ->). cbn [noCall length]. rewrite HB, orb_true_r. split; auto. destruct (negative _); lia.
    - cbn [app]. destruct (drop_str KString s r HM) as [[-> _]|[-> _]]; cbn [length]; (split; [|lia]); auto. cbn [noCall]. rewrite HB. apply orb_true_r.
  Qed.

  (** What follows a side or an argument. *)
  Definition good (r : list token) : Prop :=
    avoids fieldEnd r = true /\ noNum r = true /\ noCall fnNames r = true /\ noCall ["REGEXP_CONTAINS"; "EXISTS"] r = true.
  Ltac good_ := split; [reflexivity|split; [reflexivity|split; reflexivity]].
  Lemma good_sign : forall r, good r -> avoids ["("; "-"] r = true /\ avoids ["-"] r = true /\ avoids ["("] r = true.
  Proof. intros r (H & _). split; [|split]; (eapply avoids_sub; [exact H|sub_]). Qed.

  Lemma arg_ok : forall n, (forall c r, callSafe c -> length (wCall ftxt c ++ r) < n -> pConstFunc n (wCall ftxt c ++ r) = POk (tCall c) r) ->
    forall a r, argSafe a -> good r -> length (wArg ftxt a ++ r) < n -> pArgument (pConstFunc n) (wArg ftxt a ++ r) = POk (tArg a) r.
  Proof.
    intros n IH a r HS HG HL. destruct n as [|n]; [lia|]. destruct (good_sign r HG) as (G1 & G2 & G3). destruct HG as (HA & HN & HC & HR).
    unfold MGrammar.pArgument, pAlt. destruct a as [c|m|v]; cbn [wArg tArg SGrammar.argSafe] in *.
    - apply alt_ok. eapply map_ok; [now apply IH|reflexivity].
    - destruct (math_drop m r HS HA) as (D1 & _ & D3). edestruct alt_no as [fl ->]; [apply no_map; apply no_drop; [now apply constFunc_no|exact D3]|].
      apply alt_ok. eapply map_ok; [now apply math_ok|reflexivity].
    - destruct (value_drop fnNames v r) as [D1 D3]; auto; [apply HS|]. edestruct alt_no as [fl ->]; [apply no_map; apply no_drop; [now apply constFunc_no|exact D3]|].
      edestruct alt_no as [fl' ->]; [apply no_map; now apply math_value_no|]. apply alt_ok. eapply map_ok; [apply value_ok; auto; apply HS|reflexivity].
  Qed.
  Lemma oneName_ok : forall f r, pOneArgName L (fun1Word f :: r) = POk (tName1 f) r.
  Proof. intros [] r; reflexivity. Qed.
  Ltac len := repeat (rewrite app_length in *; cbn [length] in *); lia.
  Lemma call_ok : forall n c r, callSafe c -> length (wCall ftxt c ++ r) < n -> pConstFunc n (wCall ftxt c ++ r) = POk (tCall c) r.
  Proof.
    induction n as [|n IH]; intros c r HS HL; [lia|]. pose proof (arg_ok n IH) as HA. cbn [MGrammar.pConstFunc]. unfold pConstFunc1.
    destruct c as [neg|neg|neg f a|neg a b|neg a b].
    - change (wCall ftxt (CPi neg)) with (minus neg ++ [word "PI"; sym "("; sym ")"]). rewrite <- app_assoc. eapply then_ok; [apply minus_w; reflexivity|]. reflexivity.
    - change (wCall ftxt (CE neg)) with (minus neg ++ [word "E"; sym "("; sym ")"]). rewrite <- app_assoc. eapply then_ok; [apply minus_w; reflexivity|]. reflexivity.
    - change (wCall ftxt (COne neg f a)) with (minus neg ++ fun1Word f :: sym "(" :: wArg ftxt a ++ [sym ")"]) in *.
      repeat (rewrite <- app_assoc in *; cbn [app] in *). eapply then_ok; [apply minus_w; destruct f; reflexivity|]. unfold pAlt. rewrite alt_none; [|destruct f; reflexivity].
      apply alt_ok. eapply map_ok; [|reflexivity]. unfold pOneArg. eapply then_ok; [apply oneName_ok|]. eapply then_ok; [apply lit_eq|].
      eapply then_ok; [apply HA; [exact HS|good_|len]|]. eapply then_ok; [apply lit_eq|reflexivity].
    - change (wCall ftxt (CAtan2 neg a b)) with (minus neg ++ word "ATAN2" :: sym "(" :: wArg ftxt a ++ sym "," :: wArg ftxt b ++ [sym ")"]) in *.
      repeat (rewrite <- app_assoc in *; cbn [app] in *). eapply then_ok; [apply minus_w; reflexivity|]. unfold pAlt. rewrite alt_none; [|reflexivity]. rewrite alt_none; [|reflexivity].
      apply alt_ok. eapply map_ok; [|reflexivity]. unfold pTwoArgs. eapply then_ok; [reflexivity|]. eapply then_ok; [apply lit_eq|].
      destruct HS as [S1 S2]. eapply then_ok; [apply HA; [exact S1|good_|len]|]. eapply then_ok; [apply lit_eq|].
      eapply then_ok; [apply HA; [exact S2|good_|len]|]. eapply then_ok; [apply lit_eq|reflexivity].
    - change (wCall ftxt (CPow neg a b)) with (minus neg ++ word "POW" :: sym "(" :: wArg ftxt a ++ sym "," :: wArg ftxt b ++ [sym ")"]) in *.
      repeat (rewrite <- app_assoc in *; cbn [app] in *). eapply then_ok; [apply minus_w; reflexivity|]. unfold pAlt. rewrite alt_none; [|reflexivity]. rewrite alt_none; [|reflexivity].
      apply alt_ok. eapply map_ok; [|reflexivity]. unfold pTwoArgs. eapply then_ok; [reflexivity|]. eapply then_ok; [apply lit_eq|].
      destruct HS as [S1 S2]. eapply then_ok; [apply HA; [exact S1|good_|len]|]. eapply then_ok; [apply lit_eq|].
      eapply then_ok; [apply HA; [exact S2|good_|len]|]. eapply then_ok; [apply lit_eq|reflexivity].
  Qed.

  (** ** Sides *)
  Lemma bool_none : forall ts, avoids boolWords ts = true -> pBoolean L ts = PNone.
  Proof.
    intros ts H. unfold pBoolean, pAlt. repeat (rewrite alt_none; [|unfold pmap at 1; erewrite flag_no; [reflexivity|exact H|cbn; tauto]]). reflexivity.
  Qed.
  Lemma bool_ok : forall u b r, pBoolean L (boolWord u b :: r) = POk (tBool u b) r.
  Proof. intros [] [] r; reflexivity. Qed.
  Lemma avoids_app : forall l x y, avoids l x = true -> x <> [] -> avoids l (x ++ y) = true.
  Proof. intros l [|t x] y H HN; [congruence|exact H]. Qed.
  Lemma wSeg_ne : forall s, wSeg s <> [].
  Proof. intros [[b|b|b|] i]; discriminate. Qed.
  Lemma wField_ne : forall f, wField f <> [].
  Proof. intros [[] [[b|b|b|] i] l]; discriminate. Qed.
  Lemma wNum_ne : forall n, wNum ftxt n <> [].
  Proof. intros [[] z|[] f]; discriminate. Qed.
  Lemma wCall_ne : forall c, wCall ftxt c <> [].
  Proof. intros [[]|[]|[] f a|[] a b|[] a b]; discriminate. Qed.
  Lemma app_ne : forall (x y : list token), x <> [] -> x ++ y <> [].
  Proof. intros [|a x] y H; [congruence|discriminate]. Qed.
  Lemma wSide_ne : forall s, wSide ftxt s <> [].
  Proof.
    intros [c|u b|m|v]; cbn [wSide]; [apply wCall_ne|discriminate| |destruct v; [apply wNum_ne|discriminate]].
    destruct m as [f|n p f|f p n|f p g]; cbn [wMath]; [apply wField_ne|apply app_ne; apply wNum_ne|apply app_ne; apply wField_ne|apply app_ne; apply wField_ne].
  Qed.
  Lemma noCall_drop : forall l ts, avoids l [sym "-"] = true -> noCall l (dropMinus ts) = true -> noCall l ts = true.
  Proof.
    intros l [|t r] H HD; [reflexivity|]. cbn [dropMinus] in HD. destruct (bytes_eqb (tk_text t) (s2b "-")) eqn:E; [|exact HD].
    apply bytes_eqb_eq in E. cbn [noCall]. assert (avoids l [t] = true) as ->; [|reflexivity]. cbn [avoids] in *. now rewrite E.
  Qed.
  (** A left side is no boolean expression. *)
  Lemma lhs_noCall : forall s r, lhsSafe s -> good r -> noCall ["REGEXP_CONTAINS"; "EXISTS"] (wSide ftxt s ++ r) = true.
  Proof.
    intros s r [_ HS] HG. destruct (good_sign r HG) as (G1 & G2 & G3). destruct HG as (HA & HN & HC & HR). destruct s as [c|u b|m|v]; cbn [wSide] in *.
    - destruct c as [[]|[]|[] f a|[] a b|[] a b]; try reflexivity; destruct f; reflexivity.
    - destruct u, b; reflexivity.
    - apply noCall_drop; [reflexivity|]. apply math_drop; auto.
    - apply noCall_drop; [reflexivity|]. apply value_drop; auto. apply HS.
  Qed.
  Lemma boolExpr_no : forall n ts, avoids boolWords ts = true -> noCall ["REGEXP_CONTAINS"; "EXISTS"] ts = true -> no (pBooleanExpr n) ts.
  Proof.
    intros n ts HA HC. unfold MGrammar.pBooleanExpr. apply no_alt. constructor; [apply no_map; left; now apply bool_none|]. constructor; [|constructor]. apply no_map.
    unfold pBooleanFunc. destruct ts as [|t r]; [left; reflexivity|]. apply no_alt. constructor; [|constructor; [|constructor]]; apply no_map.
    - unfold pBoolTwoArgs. apply call_no with (l := ["REGEXP_CONTAINS"]); [apply flag_head|intro HB|eapply noCall_sub; [exact HC|sub_]].
      unfold pmap at 1. erewrite flag_no; [reflexivity|apply avoids_hd; exact HB|now left].
    - unfold pExists. apply call_no with (l := ["EXISTS"]) (k := fun _ _ => pthen (pField L) (fun f => pthen (pLit ")") (fun _ => pret {| ex_field := Some f |})));
        [|intro HB|eapply noCall_sub; [exact HC|sub_]].
      + unfold headOnly, pLit. destruct (bytes_eqb (tk_text t) (s2b "EXISTS")); eauto.
      + eapply lit_no; [apply avoids_hd; exact HB|now left].
  Qed.
  Lemma lhs_ok : forall n s r, lhsSafe s -> good r -> length (wSide ftxt s ++ r) < n -> pLhs n (wSide ftxt s ++ r) = POk (tSide s) r.
  Proof.
    intros n s r [HW HS] HG HL. destruct n as [|n]; [lia|]. destruct (good_sign r HG) as (G1 & G2 & G3). destruct HG as (HA & HN & HC & HR).
    assert (avoids boolWords (wSide ftxt s ++ r) = true) as HB by (apply avoids_app; [|apply wSide_ne]; eapply avoids_sub; [exact HW|sub_]).
    unfold MGrammar.pLhs, pAlt. destruct s as [c|u b|m|v]; cbn [wSide tSide] in *.
    - apply alt_ok. eapply map_ok; [apply call_ok; auto|reflexivity].
    - destruct u, b; discriminate HW.
    - destruct (math_drop m r HS HA) as (D1 & _ & D3). edestruct alt_no as [fl ->]; [apply no_map; apply no_drop; [now apply constFunc_no|exact D3]|].
      rewrite alt_none by (unfold sdBool, pmap; now rewrite bool_none). apply alt_ok. eapply map_ok; [now apply math_ok|reflexivity].
    - destruct (value_drop fnNames v r) as [D1 D3]; auto; [apply HS|]. edestruct alt_no as [fl ->]; [apply no_map; apply no_drop; [now apply constFunc_no|exact D3]|].
      rewrite alt_none by (unfold sdBool, pmap; now rewrite bool_none). edestruct alt_no as [fl' ->]; [apply no_map; now apply math_value_no|].
      apply alt_ok. eapply map_ok; [apply value_ok; auto; apply HS|reflexivity].
  Qed.
  Lemma math_noValue : forall m r, mathSafe m -> (forall n p f, m <> FNumL n p f) -> avoids fieldEnd r = true -> no pValue (wMath ftxt m ++ r).
  Proof.
    intros m r H HN HA. unfold MGrammar.pValue. apply no_alt.
    assert (exists f y, wMath ftxt m ++ r = wField f ++ y /\ fieldSafe f) as (f & y & -> & Hf).
    { destruct m as [f|n p f|f p n|f p g]; cbn [wMath SGrammar.mathSafe] in *; [|destruct (HN n p f eq_refl)|..]; exists f; try rewrite <- app_assoc; eexists; (split; [reflexivity|tauto]). }
    constructor; [|constructor; [|constructor]]; apply no_map.
    - apply no_drop; [apply mathValue_no; now apply field_noNum|now apply field_drop].
    - left. destruct f as [[] [[b|b|b|] i] l]; reflexivity.
  Qed.
  Lemma rhs_ok : forall n p s r, rhsSafe p s -> good r -> length (wSide ftxt s ++ r) < n -> pRhs n (wSide ftxt s ++ r) = POk (tSide s) r.
  Proof.
    intros n p s r [_ HS] HG HL. destruct n as [|n]; [lia|]. destruct (good_sign r HG) as (G1 & G2 & G3). destruct HG as (HA & HN & HC & HR).
    unfold MGrammar.pRhs, pAlt. destruct s as [c|u b|m|v].
    - apply alt_ok. eapply map_ok; [apply call_ok; auto|reflexivity].
    - cbn [wSide tSide app]. edestruct alt_no as [fl ->].
      + apply no_map. assert (dropMinus (boolWord u b :: r) = boolWord u b :: r) as E by (apply drop_none; destruct u, b; reflexivity).
        eapply no_fail; [apply constFunc_no; rewrite E; destruct u, b; reflexivity|rewrite E; lia].
      + apply alt_ok. eapply map_ok; [apply bool_ok|reflexivity].
    - assert (mathSafe m /\ avoids boolWords (wSide ftxt (SField m)) = true /\ forall n p f, m <> FNumL n p f) as (HM & HB & HF) by (destruct m; try (destruct HS); split; auto; split; auto; discriminate).
      cbn [wSide tSide] in *. destruct (math_drop m r HM HA) as (D1 & _ & D3). edestruct alt_no as [fl ->]; [apply no_map; apply no_drop; [now apply constFunc_no|exact D3]|].
      rewrite alt_none by (unfold sdBool, pmap; rewrite bool_none; [reflexivity|]; apply avoids_app; [exact HB|apply (wSide_ne (SField m))]).
      edestruct alt_no as [fl' ->]; [apply no_map; now apply math_noValue|]. apply alt_ok. eapply map_ok; [now apply math_ok|reflexivity].
    - destruct HS as [HV HB]. cbn [wSide tSide] in *. destruct (value_drop fnNames v r) as [D1 D3]; auto. edestruct alt_no as [fl ->]; [apply no_map; apply no_drop; [now apply constFunc_no|exact D3]|].
      rewrite alt_none by (unfold sdBool, pmap; rewrite bool_none; [reflexivity|]; apply avoids_app; [exact HB|apply (wSide_ne (SValue v))]).
      apply alt_ok. eapply map_ok; [apply value_ok; auto|reflexivity].
  Qed.

  (** ** Conditions *)
  Lemma opChar_none : forall ts, avoids opSigns ts = true -> pOpChar L ts = PNone.
  Proof.
    intros ts H. unfold pOpChar, pAlt. repeat (rewrite alt_none; [|unfold pmap at 1; erewrite flag_no; [reflexivity|exact H|cbn; tauto]]). reflexivity.
  Qed.
  Lemma compareOp_ok : forall p x, (length (wCop p) = 1 -> avoids opSigns x = true) -> pCompareOp L (wCop p ++ x) = POk (tCop p) x.
  Proof.
    intros p x H. unfold pCompareOp. destruct p as [[]|[]| | | |]; cbn [wCop app tCop length] in *; (eapply then_ok; [reflexivity|]);
      first [eapply then_ok; [eapply opt_ok; reflexivity|reflexivity] | eapply then_ok; [apply opt_none, opChar_none, H; reflexivity|reflexivity]].
  Qed.
  Lemma checkOp_ok : forall neg w r, w = "NULL" \/ w = "MISSING" -> pCheckOp L (isNot neg ++ word w :: r)
    = POk {| ck_not := flag neg; ck_null := if (w =? "NULL")%string then Some true else None; ck_missing := if (w =? "NULL")%string then None else Some true |} r.
  Proof. intros [] w r [-> | ->]; reflexivity. Qed.
  Lemma cop_good : forall p x, good (wCop p ++ x).
  Proof. intros [[]|[]| | | |] x; good_. Qed.
  Lemma isNot_good : forall neg x, good (isNot neg ++ x).
  Proof. intros [] x; good_. Qed.
  Ltac asc := cbn [app] in *; repeat (rewrite <- app_assoc in *; cbn [app] in *).
  Lemma basic_ok : forall n b r, basicSafe b -> good r -> length (wBasic ftxt b ++ r) < n -> pOperand n (wBasic ftxt b ++ r) = POk (tBasic b) r.
  Proof.
    intros n b r HS HG HL. unfold MGrammar.pOperand, pAlt. pose proof (call_ok n) as HC. pose proof (arg_ok n HC) as HA.
    destruct b as [u c|a p|a c|f|l p s|neg l|neg l]; cbn [wBasic tBasic SGrammar.basicSafe] in *.
    - apply alt_ok. eapply map_ok; [|reflexivity]. unfold MGrammar.pBooleanExpr, pAlt. apply alt_ok. eapply map_ok; [apply bool_ok|reflexivity].
    - destruct HS as [S1 S2]. asc.
      apply alt_ok. eapply map_ok; [|reflexivity]. unfold MGrammar.pBooleanExpr, pAlt. rewrite alt_none; [|reflexivity]. apply alt_ok. eapply map_ok; [|reflexivity].
      unfold pBooleanFunc, pAlt. apply alt_ok. eapply map_ok; [|reflexivity]. unfold pBoolTwoArgs. eapply then_ok; [reflexivity|]. eapply then_ok; [apply lit_eq|].
      eapply then_ok; [apply HA; auto; [good_|cbn [length] in HL; lia]|]. eapply then_ok; [apply lit_eq|]. eapply then_ok.
      + unfold MGrammar.pArgumentRHS, pAlt. destruct n as [|n]; [lia|]. destruct (value_drop fnNames p (sym ")" :: r)) as [D1 D3]; auto.
        edestruct alt_no as [fl ->]; [apply no_map; apply no_drop; [now apply constFunc_no|exact D3]|]. apply alt_ok. eapply map_ok; [apply value_ok; auto|reflexivity].
      + eapply then_ok; [apply lit_eq|reflexivity].
    - destruct HS as [S1 S2]. asc.
      apply alt_ok. eapply map_ok; [|reflexivity]. unfold MGrammar.pBooleanExpr, pAlt. rewrite alt_none; [|reflexivity]. apply alt_ok. eapply map_ok; [|reflexivity].
      unfold pBooleanFunc, pAlt. apply alt_ok. eapply map_ok; [|reflexivity]. unfold pBoolTwoArgs. eapply then_ok; [reflexivity|]. eapply then_ok; [apply lit_eq|].
      eapply then_ok; [apply HA; auto; [good_|cbn [length] in HL; lia]|]. eapply then_ok; [apply lit_eq|]. eapply then_ok.
      + unfold MGrammar.pArgumentRHS, pAlt. apply alt_ok. eapply map_ok; [apply HC; auto|reflexivity]. repeat (rewrite app_length in *; cbn [length] in *). lia.
      + eapply then_ok; [apply lit_eq|reflexivity].
    - asc.
      apply alt_ok. eapply map_ok; [|reflexivity]. unfold MGrammar.pBooleanExpr, pAlt. rewrite alt_none; [|reflexivity]. apply alt_ok. eapply map_ok; [|reflexivity].
      unfold pBooleanFunc, pAlt. rewrite alt_none; [|reflexivity]. apply alt_ok. eapply map_ok; [|reflexivity]. unfold pExists. eapply then_ok; [apply lit_eq|]. eapply then_ok; [apply lit_eq|].
      eapply then_ok; [apply field_ok; auto|]. eapply then_ok; [apply lit_eq|reflexivity].
    - destruct HS as [S1 S2]. rewrite <- !app_assoc in *. pose proof (cop_good p (wSide ftxt s ++ r)) as GC.
      edestruct alt_no as [fl ->]; [apply no_map, boolExpr_no; [apply avoids_app; [|apply wSide_ne]; eapply avoids_sub; [apply S1|sub_]|now apply lhs_noCall]|].
      apply alt_ok. eapply then_ok; [apply lhs_ok; auto|]. unfold pAlt. apply alt_ok. eapply then_ok; [apply compareOp_ok; intro; apply avoids_app; [now apply S2|apply wSide_ne]|].
      eapply then_ok; [eapply rhs_ok; eauto|reflexivity]. rewrite app_length in HL. assert (forall x, length x <= length (wCop p ++ x)) as HX by (intro; rewrite app_length; lia). specialize (HX (wSide ftxt s ++ r)). lia.
    - rewrite <- !app_assoc in *. cbn [app] in *. pose proof (isNot_good neg (word "NULL" :: r)) as GC.
      edestruct alt_no as [fl ->]; [apply no_map, boolExpr_no; [apply avoids_app; [|apply wSide_ne]; eapply avoids_sub; [apply HS|sub_]|now apply lhs_noCall]|].
      apply alt_ok. eapply then_ok; [apply lhs_ok; auto|]. unfold pAlt. rewrite alt_none; [|reflexivity]. apply alt_ok. eapply map_ok; [apply checkOp_ok; now left|reflexivity].
    - rewrite <- !app_assoc in *. cbn [app] in *. pose proof (isNot_good neg (word "MISSING" :: r)) as GC.
      edestruct alt_no as [fl ->]; [apply no_map, boolExpr_no; [apply avoids_app; [|apply wSide_ne]; eapply avoids_sub; [apply HS|sub_]|now apply lhs_noCall]|].
      apply alt_ok. eapply then_ok; [apply lhs_ok; auto|]. unfold pAlt. rewrite alt_none; [|reflexivity]. apply alt_ok. eapply map_ok; [apply checkOp_ok; now right|reflexivity].
  Qed.
  Lemma basic_head : forall b r, basicSafe b -> avoids ["("; "NOT"] (wBasic ftxt b ++ r) = true.
  Proof.
    assert (forall l x r, lhsSafe l -> avoids ["("; "NOT"] ((wSide ftxt l ++ x) ++ r) = true) as HX.
    { intros l x r [H _]. rewrite <- app_assoc. apply avoids_app; [|apply wSide_ne]. eapply avoids_sub; [exact H|sub_]. }
    intros b r H. destruct b as [u c|a p|a c|f|l p s|neg l|neg l]; cbn [wBasic SGrammar.basicSafe] in *; try reflexivity; [destruct u, c; reflexivity|..]; apply HX; auto. apply H.
  Qed.
  Lemma cond_ok : forall c n r, allCond basicSafe c -> good r -> length (wCond ftxt c ++ r) < n -> pCondition n (wCond ftxt c ++ r) = POk (tCond c) r.
  Proof.
    induction c as [c IH|b]; intros n r HS HG HL; (destruct n as [|n]; [lia|]); cbn [MGrammar.pCondition wCond tCond allCond] in *; unfold pAlt.
    - cbn [app length] in *. apply alt_ok. eapply then_ok; [apply lit_eq|]. eapply map_ok; [apply IH; auto; lia|reflexivity].
    - rewrite alt_none; [|apply then_none; eapply lit_no; [apply (basic_head b r HS)|cbn; tauto]]. apply alt_ok. eapply map_ok; [now apply basic_ok|reflexivity].
  Qed.
  Lemma cond_head : forall c r, allCond basicSafe c -> avoids ["("] (wCond ftxt c ++ r) = true.
  Proof.
    intros [c|b] r H; [reflexivity|]. cbn [wCond allCond] in *. eapply avoids_sub; [now apply basic_head|sub_].
  Qed.

  (** ** Whole filters *)
  Definition orTail (l : list tconj) : list token := flat_map (fun c => word "OR" :: wConj ftxt c) l.
  Definition andTail (l : list tterm) : list token := flat_map (fun t => word "AND" :: wTerm ftxt t) l.
  Lemma wFilter_eq : forall a l, wFilter ftxt (FOr a l) = wConj ftxt a ++ orTail l.
  Proof.
    intros. change (wFilter ftxt (FOr a l)) with (wConj ftxt a ++ (fix go l := match l with [] => [] | c :: r => word "OR" :: wConj ftxt c ++ go r end) l). f_equal.
  Qed.
  Lemma wConj_eq : forall a l, wConj ftxt (FAnd a l) = wTerm ftxt a ++ andTail l.
  Proof.
    intros. change (wConj ftxt (FAnd a l)) with (wTerm ftxt a ++ (fix go l := match l with [] => [] | c :: r => word "AND" :: wTerm ftxt c ++ go r end) l). f_equal.
  Qed.
  Lemma all_or : forall P a l, allBasic P (FOr a l) -> allConj P a /\ forall c, In c l -> allConj P c.
  Proof.
    intros P a l H. destruct H as [H1 H2]. split; auto. intros c Hc. induction l as [|b l IH]; [destruct Hc|]. destruct H2 as [H2 H3]. destruct Hc as [<- |Hc]; auto.
  Qed.
  Lemma all_and : forall P a l, allConj P (FAnd a l) -> allTerm P a /\ forall c, In c l -> allTerm P c.
  Proof.
    intros P a l H. destruct H as [H1 H2]. split; auto. intros c Hc. induction l as [|b l IH]; [destruct Hc|]. destruct H2 as [H2 H3]. destruct Hc as [<- |Hc]; auto.
  Qed.
  (** What follows a filter, a conjunction, a term. *)
  Definition endF (r : list token) : Prop := good r /\ pLit "OR" r = PNone /\ pLit "AND" r = PNone.
  Definition endC (r : list token) : Prop := good r /\ pLit "AND" r = PNone.
  Lemma filter_ok : forall n f r, allBasic basicSafe f -> endF r -> length (wFilter ftxt f ++ r) < n -> pInner n (wFilter ftxt f ++ r) = POk (tFilter f) r.
  Proof.
    induction n as [|n IH]; intros f r HS HE HL; [lia|].
    assert (forall t r, allTerm basicSafe t -> good r -> length (wTerm ftxt t ++ r) < S n -> pSub (S n) (pInner n) (wTerm ftxt t ++ r) = POk (tTerm t) r) as Hterm.
    { clear f r HS HE HL. intros t r HS HE HL. unfold MGrammar.pSub, pAlt. destruct t as [f|c].
      - change (wTerm ftxt (TParen f)) with (sym "(" :: wFilter ftxt f ++ [sym ")"]) in *. asc. cbn [length] in HL. apply alt_ok. eapply then_ok; [apply lit_eq|]. eapply then_ok; [apply IH; auto; [|lia]|].
        + split; [good_|split; reflexivity].
        + eapply then_ok; [apply lit_eq|reflexivity].
      - rewrite alt_none; [|apply then_none; eapply lit_no; [now apply cond_head|now left]]. apply alt_ok. eapply map_ok; [now apply cond_ok|reflexivity]. }
    assert (forall c r, allConj basicSafe c -> endC r -> length (wConj ftxt c ++ r) < S n -> pInnerAnd (S n) (pInner n) (wConj ftxt c ++ r) = POk (tConj c) r) as Hconj.
    { clear f r HS HE HL. intros [a l] r HS [HE HA] HL. apply all_and in HS. destruct HS as [S1 S2]. rewrite wConj_eq in *. rewrite <- app_assoc in *. unfold MGrammar.pInnerAnd.
      eapply then_ok; [apply Hterm; auto; destruct l; [exact HE|good_]|]. eapply then_ok; [|reflexivity].
      apply (rep_list tterm _ (fun t => word "AND" :: wTerm ftxt t) tTerm) with (Q := good); auto.
      - intros t y Ht Hlen Hy. cbn [app]. eapply then_ok; [apply lit_eq|]. apply Hterm; auto. cbn [app length] in Hlen. rewrite app_length in HL. unfold andTail in HL. lia.
      - intros. good_.
      - intro. cbn [length]. lia.
      - now apply then_none. }
    destruct f as [a l]. apply all_or in HS. destruct HS as [S1 S2]. destruct HE as (HG & HO & HA). rewrite wFilter_eq in *. rewrite <- app_assoc in *. cbn [MGrammar.pInner].
    eapply then_ok; [apply Hconj; auto; destruct l; [split; auto|split; [good_|reflexivity]]|]. eapply then_ok; [|reflexivity].
    apply (rep_list tconj _ (fun t => word "OR" :: wConj ftxt t) tConj) with (Q := endC); auto.
    - intros t y Ht Hlen Hy. cbn [app]. eapply then_ok; [apply lit_eq|]. apply Hconj; auto. cbn [app length] in Hlen. rewrite app_length in HL. unfold orTail in HL. lia.
    - intros. split; [good_|reflexivity].
    - intro. cbn [length]. lia.
    - now split.
    - now apply then_none.
  Qed.
  Lemma parse_ok : forall f, allBasic basicSafe f -> parseTokens L intOf floatOf (wFilter ftxt f) = Ok (tree f).
  Proof.
    intros f H. unfold parseTokens. rewrite <- (app_nil_r (wFilter ftxt f)). rewrite filter_ok; auto. split; [good_|split; reflexivity].
  Qed.
End Lib.
