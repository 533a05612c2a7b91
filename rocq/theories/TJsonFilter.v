(** C80: a filter in the JSON syntax answers what it says. *)
From Coq Require Import String.
From Verif Require Import Base MTokenizer SJson SUnicode SNames MLit PLit MFastVal SEvents MExpr MTransform MExprJson SExprJson SFilter MMatcher MTree SDoc SSat SSem SNumber
  PExpr PWf PSem PCheck PNumber SExamples TFastVal TMatch TNames TText TDate TNumber PNearest SRound SArith TArith TExprJson SOrder TOrder SJsonFilter.
From Coq Require Import List NArith ZArith QArith Qabs Lia Lqa Bool.
From Coq Require Import Floats.SpecFloat.
Import ListNotations.
Open Scope Q_scope.

Scheme says_mind := Induction for says Sort Prop
  with saysAll_mind := Induction for saysAll Sort Prop.
Combined Scheme says_mutind from says_mind, saysAll_mind.
Scheme affirms_mind := Induction for affirms Sort Prop
  with affirmAll_mind := Induction for affirmAll Sort Prop.
Combined Scheme affirms_mutind from affirms_mind, affirmAll_mind.

Lemma near_holds : forall o k doc l r v w x y, parsesDecimals o -> k <> CLike -> wf_cst doc -> named doc -> numberNear doc l v -> numberNear doc r w -> modest v -> modest w ->
  oval o doc doc l = Ok x -> oval o doc doc r = Ok y -> (cmpHolds o k x y = true <-> orderedQ k v w).
Proof.
  intros o k doc l r v w x y HP Hk WD HN Hl Hr [[a Ea] Bv] [[b Eb] Bw] Ex Ey.
  destruct (near_hand o doc l v HP WD HN Hl ltac:(lra)) as (_ & x' & u & v' & E1 & H1 & D1).
  destruct (near_hand o doc r w HP WD HN Hr ltac:(lra)) as (_ & y' & u' & w' & E2 & H2 & D2).
  rewrite Ex in E1. injection E1 as ->. rewrite Ey in E2. injection E2 as ->.
  assert (step == 1 # 100000000) as ES by reflexivity. apply Qabs_Qle_condition in D1, D2.
  apply sign_holds; auto. destruct (Z.eq_dec a b) as [->|ND].
  - assert (v == w) as EQ by (rewrite Ea, Eb; reflexivity). rewrite (sgnQ_eq v w EQ). apply (hand_close o x' y' v' w'); auto. apply Qabs_Qle_condition. split; lra.
  - destruct (number_compare o x' y' v' w' u u' HP (hand_held o x' v' H1) (hand_held o y' w' H2)) as (i & EC & _ & EA). rewrite EC. f_equal.
    apply Qabs_Qle_condition in Bv, Bw. assert (billion == 1000000000) as EB by reflexivity.
    assert (v + (1 # 1000000) <= w \/ w + (1 # 1000000) <= v) as [LT|GT].
    { rewrite Ea, Eb. destruct (Z_lt_le_dec a b); [left|right]; unfold Qle, Qplus; cbn [Qnum Qden]; lia. }
    + rewrite EA; [|apply Qabs_Qle_condition; lra|apply Qabs_Qle_condition; lra|rewrite Qabs_neg by lra; lra].
      assert (v' < w') as X by lra. assert (v < w) as Y by lra. destruct (sgnQ_lt _ _ X) as [-> _], (sgnQ_lt _ _ Y) as [-> _]. reflexivity.
    + rewrite EA; [|apply Qabs_Qle_condition; lra|apply Qabs_Qle_condition; lra|rewrite Qabs_pos by lra; lra].
      assert (w' < v') as X by lra. assert (w < v) as Y by lra. destruct (sgnQ_lt _ _ X) as [_ ->], (sgnQ_lt _ _ Y) as [_ ->]. reflexivity.
Qed.
Lemma numeral_near : forall doc p t x v, valueAt p doc (CLit t x) -> numeral t x v -> modest v -> numberNear doc (XField 0 p) v.
Proof.
  intros doc p t x v HV HX [_ B]. apply nn_exact. destruct HX as [x HI|x v HI].
  - apply (no_integer doc p x); auto. unfold exactInt. assert (Z.abs (int_val x) <= 20000000)%Z by (rewrite Zle_Qle; exact B). lia.
  - apply (no_decimal doc p x v); auto. apply (Qle_trans _ 20000000); auto. vm_compute. discriminate.
Qed.

(** ** The expression a filter stands for *)

(** Expressions without negations over fields of the variable [r]. *)
Fixpoint posE (r : nat) (e : expr) : Prop :=
  match e with
  | XAnd l | XOr l => l <> [] /\ (fix go l := match l with [] => True | x :: t => posE r x /\ go t end) l
  | XExists (XField r' _) => r' = r
  | XCmp k (XField r' _) (XValue _) => r' = r /\ k <> CNe
  | _ => False
  end.
Lemma pos_and : forall r l, posE r (XAnd l) <-> l <> [] /\ Forall (posE r) l.
Proof. intros. cbn [posE]. apply and_iff_compat_l. induction l as [|x l IH]; split; intro X; auto; [constructor; tauto|inversion X; subst; tauto]. Qed.
Lemma pos_or : forall r l, posE r (XOr l) <-> l <> [] /\ Forall (posE r) l.
Proof. intros. cbn [posE]. apply and_iff_compat_l. induction l as [|x l IH]; split; intro X; auto; [constructor; tauto|inversion X; subst; tauto]. Qed.

Lemma lone_path : forall p : list bytes, prefix_free [p].
Proof.
  intros p q k t [<-|[]] [E|[]]. assert (List.length p = List.length (p ++ k :: t)) as L by congruence. rewrite app_length in L. cbn in L. lia.
Qed.
Lemma two_paths : forall p q : list bytes, apart p q -> prefix_free [p; q].
Proof.
  intros p q H x k t HI HJ. assert (forall z : list bytes, z <> z ++ k :: t) as N.
  { intros z E. assert (List.length z = List.length (z ++ k :: t)) as L by congruence. rewrite app_length in L. cbn in L. lia. }
  destruct HI as [<-|[<-|[]]], HJ as [E|[E|[]]]; try exact (N _ E); [apply (proj1 (H k t) E)|apply (proj2 (H k t) E)].
Qed.
Section Stands.
  (** The document, the element looked at, its variable (0: the document itself). *)
  Variables (o : oracles) (doc cur : cst) (r : nat) (names : list bytes -> jv -> Prop).
  Hypothesis HP : parsesDecimals o.
  Hypothesis HPA : printsAscii (o_isPrint o).
  Hypothesis HR : r = O -> cur = doc.
  Hypothesis WD : wf_cst cur.
  Hypothesis HN : named cur.
  Hypothesis HF : forall p n, names p n -> written (timeValid o) (XField r p) n.
  Definition stands (v : jv) (b : bool) (e : expr) : Prop :=
    written (timeValid o) e v /\ basic e /\ (r = O -> compilable o 0 e) /\ e <> XFalse /\ truth o doc cur e = b.

  Lemma own : forall p, fieldAt doc cur r p = at_ p cur.
  Proof. intro p. unfold fieldAt. destruct (Nat.eqb_spec r 0) as [E|E]; auto. now rewrite (HR E). Qed.
  Lemma here : forall p w, valueAt p cur w -> allPresent doc cur (XField r p) = true /\ oval o doc cur (XField r p) = valOf o w.
  Proof. intros p w HV. apply C19_paths in HV; auto. unfold allPresent. cbn [frefs forallb oval]. unfold present. cbn [fst snd]. now rewrite own, HV. Qed.
  Lemma there : forall p w, valueAt p cur w -> oval o cur cur (XField 0 p) = valOf o w.
  Proof. intros p w HV. apply C19_paths in HV; auto. cbn [oval]. unfold fieldAt. cbn [Nat.eqb]. now rewrite HV. Qed.
  Lemma gone : forall p, absent cur p -> allPresent doc cur (XField r p) = false.
  Proof.
    intros p H. unfold allPresent. cbn [frefs forallb]. unfold present. cbn [fst snd]. rewrite own. destruct (at_ p cur) as [w|] eqn:E; auto.
    apply C19_paths in E; auto. destruct (H w E).
  Qed.
  Lemma written_value : forall y, simple y -> written (timeValid o) (XValue (valueOf y)) (valueJ y).
  Proof. intros [| | | | |] H; try contradiction; constructor. Qed.
  (** Comparisons of a field with a constant. *)
  Lemma stands_cmp : forall k p n y b, names p n -> simple y -> truth o doc cur (XCmp k (XField r p) (XValue (valueOf y))) = b ->
    stands (JArr [word (cmpWord k); n; valueJ y]) b (XCmp k (XField r p) (XValue (valueOf y))).
  Proof.
    intros k p n y b Hn HS E. split; [apply w_cmp; [now apply HF|now apply written_value]|]. split; [cbn; auto|]. split; [|split; [discriminate|exact E]].
    intro R. cbn [compilable operandOk]. split; [now left|]. split; [cbn [constRef]; eauto|]. rewrite R. apply lone_path.
  Qed.
  Lemma cmp_present : forall k p w y x u, k <> CNe -> valueAt p cur w -> valOf o w = Ok x -> oval o doc cur (XValue (valueOf y)) = Ok u ->
    truth o doc cur (XCmp k (XField r p) (XValue (valueOf y))) = cmpHolds o k x u.
  Proof.
    intros k p w y x u Hk HV EX EU. destruct (here _ _ HV) as [P V].
    assert (cmpTruth o doc cur k (XField r p) (XValue (valueOf y)) = cmpHolds o k x u) as E by (unfold cmpTruth; rewrite P, V, EX, EU; reflexivity).
    destruct k; try contradiction; exact E.
  Qed.
  Lemma cmp_negated : forall p y, truth o doc cur (XCmp CNe (XField r p) (XValue (valueOf y))) = negb (truth o doc cur (XCmp CEq (XField r p) (XValue (valueOf y)))).
  Proof. reflexivity. Qed.
  Lemma truth_is : forall b b', (b = true <-> b' = true) -> b = b'.
  Proof. intros [|] [|] H; auto; [symmetry|]; now apply H. Qed.
  Lemma string_truth : forall p t x a s, valueAt p cur (CLit t x) -> nameIs t x a -> all_bytes a -> all_bytes s ->
    (truth o doc cur (XCmp CEq (XField r p) (XValue (valueOf (JStr s)))) = true <-> a = s).
  Proof.
    intros p t x a s HV HX Ha Hs.
    assert (valOf o (CLit t x) = Ok (plain (VBinString a))) as EV.
    { pose proof (name_key _ _ _ HX) as K. destruct HX; cbn [valOf parseLit keyOf] in *; [now injection K as ->|].
      destruct (parseEscString _ _) as [[[b' s'] al]| | |]; try discriminate K. now injection K as ->. }
    destruct (C49_string_constant o s a Hs Ha) as (_ & _ & L & _).
    erewrite cmp_present; [|discriminate|exact HV|exact EV|reflexivity]. cbn [newFastVal valueOf isString toJsonString fst cmpHolds]. exact L.
  Qed.
  Lemma text_truth : forall k p t x a s, k <> CLike -> valueAt p cur (CLit t x) -> nameIs t x a -> asciiText a -> asciiText s ->
    (truth o doc cur (XCmp k (XField r p) (XValue (valueOf (JStr s)))) = true <-> orderedText k a s).
  Proof.
    intros k p t x a s Hk HV HX Ta Ts.
    assert (valOf o (CLit t x) = Ok (plain (VBinString a))) as EV.
    { pose proof (name_key _ _ _ HX) as K. destruct HX; cbn [valOf parseLit keyOf] in *; [now injection K as ->|].
      destruct (parseEscString _ _) as [[[b' s'] al]| | |]; try discriminate K. now injection K as ->. }
    assert (forall j, j <> CLike -> j <> CNe -> (truth o doc cur (XCmp j (XField r p) (XValue (valueOf (JStr s)))) = true <-> orderedText j a s)) as X.
    { intros j Hj Hn. erewrite cmp_present; [|exact Hn|exact HV|exact EV|reflexivity]. cbn [newFastVal valueOf isString toJsonString fst].
      apply ascii_holds; auto; constructor. }
    assert (k = CNe \/ k <> CNe) as [->|Hn] by (destruct k; auto; right; discriminate); [|now apply X]. rewrite cmp_negated, negb_true_iff.
    specialize (X CEq ltac:(discriminate) ltac:(discriminate)). cbn [orderedText] in *. rewrite <- X. destruct (truth o doc cur _); intuition congruence.
  Qed.
  Lemma number_truth : forall k p t x v f w, k <> CLike -> valueAt p cur (CLit t x) -> numeral t x v -> nearest f w -> modest v -> modest w ->
    (truth o doc cur (XCmp k (XField r p) (XValue (valueOf (JNum f)))) = true <-> orderedQ k v w).
  Proof.
    intros k p t x v f w Hk HV HX HFl Mv Mw.
    assert (forall k, k <> CLike -> k <> CNe -> (truth o doc cur (XCmp k (XField r p) (XValue (valueOf (JNum f)))) = true <-> orderedQ k v w)) as X.
    { intros j Hj Hn. pose proof (numeral_near cur _ t x v HV HX Mv) as Nl. assert (numberNear cur (XValue (GFloat f)) w) as Nr by now apply nn_const.
      destruct (near_hand o cur _ v HP WD HN Nl ltac:(destruct Mv; lra)) as (_ & x' & u & v' & E1 & _). pose proof (there _ _ HV) as V. rewrite V in E1.
      erewrite cmp_present; [|exact Hn|exact HV|exact E1|reflexivity].
      apply (near_holds o j cur (XField 0 p) (XValue (GFloat f)) v w); auto. now rewrite V. }
    assert (k = CNe \/ k <> CNe) as [->|Hn] by (destruct k; auto; right; discriminate); [|now apply X]. rewrite cmp_negated, negb_true_iff.
    specialize (X CEq ltac:(discriminate) ltac:(discriminate)). cbn [orderedQ] in *. rewrite <- X. destruct (truth o doc cur _); intuition congruence.
  Qed.

  (** Comparisons of two fields. *)
  Lemma stands_two : forall k p n q n' b, names p n -> names q n' -> apart p q -> truth o doc cur (XCmp k (XField r p) (XField r q)) = b ->
    stands (JArr [word (cmpWord k); n; n']) b (XCmp k (XField r p) (XField r q)).
  Proof.
    intros k p n q n' b Hn Hm HA E. split; [apply w_cmp; now apply HF|]. split; [cbn; auto|]. split; [|split; [discriminate|exact E]].
    intro R. cbn [compilable operandOk]. rewrite R. split; [now left|]. split; [now left|]. now apply two_paths.
  Qed.
  Lemma two_present : forall k p q w w' x y, valueAt p cur w -> valueAt q cur w' -> valOf o w = Ok x -> valOf o w' = Ok y -> k <> CNe ->
    truth o doc cur (XCmp k (XField r p) (XField r q)) = cmpHolds o k x y.
  Proof.
    intros k p q w w' x y HV HV' EX EY Hk. destruct (here _ _ HV) as [P V], (here _ _ HV') as [P' V'].
    assert (cmpTruth o doc cur k (XField r p) (XField r q) = cmpHolds o k x y) as E by (unfold cmpTruth; rewrite P, V, P', V', EX, EY; reflexivity).
    destruct k; try contradiction; exact E.
  Qed.
  Lemma two_negated : forall p q, truth o doc cur (XCmp CNe (XField r p) (XField r q)) = negb (truth o doc cur (XCmp CEq (XField r p) (XField r q))).
  Proof. reflexivity. Qed.
  Lemma name_val : forall t x a, nameIs t x a -> valOf o (CLit t x) = Ok (plain (VBinString a)).
  Proof.
    intros t x a HX. pose proof (name_key _ _ _ HX) as K. destruct HX; cbn [valOf parseLit keyOf] in *; [now injection K as ->|].
    destruct (parseEscString _ _) as [[[b' s'] al]| | |]; try discriminate K. now injection K as ->.
  Qed.
  Lemma texts_truth : forall k p q t x a t' x' s, k <> CLike -> valueAt p cur (CLit t x) -> nameIs t x a -> valueAt q cur (CLit t' x') -> nameIs t' x' s -> asciiText a -> asciiText s ->
    (truth o doc cur (XCmp k (XField r p) (XField r q)) = true <-> orderedText k a s).
  Proof.
    intros k p q t x a t' x' s Hk HV HX HV' HX' Ta Ts.
    assert (forall j, j <> CLike -> j <> CNe -> (truth o doc cur (XCmp j (XField r p) (XField r q)) = true <-> orderedText j a s)) as X.
    { intros j Hj Hn. rewrite (two_present j p q _ _ _ _ HV HV' (name_val _ _ _ HX) (name_val _ _ _ HX') Hn). apply ascii_holds; auto; constructor. }
    assert (k = CNe \/ k <> CNe) as [->|Hn] by (destruct k; auto; right; discriminate); [|now apply X]. rewrite two_negated, negb_true_iff.
    specialize (X CEq ltac:(discriminate) ltac:(discriminate)). cbn [orderedText] in *. rewrite <- X. destruct (truth o doc cur _); intuition congruence.
  Qed.
  Lemma numbers_truth : forall k p q t x v t' x' w, k <> CLike -> valueAt p cur (CLit t x) -> numeral t x v -> valueAt q cur (CLit t' x') -> numeral t' x' w -> modest v -> modest w ->
    (truth o doc cur (XCmp k (XField r p) (XField r q)) = true <-> orderedQ k v w).
  Proof.
    intros k p q t x v t' x' w Hk HV HX HV' HX' Mv Mw.
    assert (forall j, j <> CLike -> j <> CNe -> (truth o doc cur (XCmp j (XField r p) (XField r q)) = true <-> orderedQ j v w)) as X.
    { intros j Hj Hn. pose proof (numeral_near cur _ t x v HV HX Mv) as Nl. pose proof (numeral_near cur _ t' x' w HV' HX' Mw) as Nr.
      destruct (near_hand o cur _ v HP WD HN Nl ltac:(destruct Mv; lra)) as (_ & y & u & v' & E1 & _).
      destruct (near_hand o cur _ w HP WD HN Nr ltac:(destruct Mw; lra)) as (_ & z & u' & w' & E2 & _).
      pose proof E1 as V1. pose proof E2 as V2. rewrite (there _ _ HV) in V1. rewrite (there _ _ HV') in V2.
      rewrite (two_present j p q _ _ _ _ HV HV' V1 V2 Hn). apply (near_holds o j cur (XField 0 p) (XField 0 q) v w); auto. }
    assert (k = CNe \/ k <> CNe) as [->|Hn] by (destruct k; auto; right; discriminate); [|now apply X]. rewrite two_negated, negb_true_iff.
    specialize (X CEq ltac:(discriminate) ltac:(discriminate)). cbn [orderedQ] in *. rewrite <- X. destruct (truth o doc cur _); intuition congruence.
  Qed.

  Lemma says_stands : (forall v b, says names cur v b -> exists e, stands v b e)
    /\ (forall vs bs, saysAll names cur vs bs -> exists es, writtenAll (timeValid o) es vs /\ Forall basic es /\ (r = O -> allC o 0 es) /\ map (truth o doc cur) es = bs).
  Proof.
    assert (forall es, forallb (fun b => b) (map (truth o doc cur) es) = forallb (truth o doc cur) es) as FA by (induction es as [|e es IH]; cbn; auto; now rewrite IH).
    assert (forall es, existsb (fun b => b) (map (truth o doc cur) es) = existsb (truth o doc cur) es) as FE by (induction es as [|e es IH]; cbn; auto; now rewrite IH).
    apply (says_mutind names cur (fun v b _ => exists e, stands v b e)
      (fun vs bs _ => exists es, writtenAll (timeValid o) es vs /\ Forall basic es /\ (r = O -> allC o 0 es) /\ map (truth o doc cur) es = bs)).
    - intros k p n t x v f w b Hn Hk HV HX HFl Mv Mw Hb. eexists. apply (stands_cmp k p n (JNum f)); [exact Hn|exact I|]. apply truth_is. rewrite Hb. now apply (number_truth k p t x v f w).
    - intros p n t x a s b Hn HV HX Ha Hs Hb. eexists. apply (stands_cmp CEq p n (JStr s)); [exact Hn|exact I|]. apply truth_is. rewrite Hb. now apply (string_truth p t x a s).
    - intros p n t x a s b Hn HV HX Ha Hs Hb. eexists. apply (stands_cmp CNe p n (JStr s)); [exact Hn|exact I|]. apply truth_is. rewrite Hb, cmp_negated, negb_true_iff.
      rewrite <- (string_truth p t x a s HV HX Ha Hs). destruct (truth o doc cur _); intuition congruence.
    - intros k p n t x a s b Hn Hk HV HX Ta Ts Hb. eexists. apply (stands_cmp k p n (JStr s)); [exact Hn|exact I|]. apply truth_is. rewrite Hb. now apply (text_truth k p t x a s).
    - intros p n t x y Hn HV HW. eexists. apply (stands_cmp CEq p n y); [exact Hn|destruct HW; exact I|].
      destruct HW; (erewrite cmp_present; [|discriminate|exact HV|reflexivity|reflexivity]); reflexivity.
    - intros p n t x a Hn HV HW. eexists. apply (stands_cmp CEq p n (JBool (negb a))); [exact Hn|exact I|].
      inversion HW; subst; (erewrite cmp_present; [|discriminate|exact HV|reflexivity|reflexivity]); reflexivity.
    - intros k p n y Hn HV HS. eexists. apply (stands_cmp k p n y); auto. pose proof (gone _ HV) as G.
      destruct k; cbn [truth]; unfold cmpTruth; rewrite G; reflexivity.
    - intros k p n q n' t x v t' x' w b Hn Hm HA Hk HV HX HV' HX' Mv Mw Hb. eexists. apply (stands_two k p n q n'); auto. apply truth_is. rewrite Hb. now apply (numbers_truth k p q t x v t' x' w).
    - intros k p n q n' t x a t' x' s b Hn Hm HA Hk HV HX HV' HX' Ta Ts Hb. eexists. apply (stands_two k p n q n'); auto. apply truth_is. rewrite Hb. now apply (texts_truth k p q t x a t' x' s).
    - intros k p n q n' Hn Hm HA HV. eexists. apply (stands_two k p n q n'); auto.
      assert (forall j, cmpTruth o doc cur j (XField r p) (XField r q) = false) as F.
      { intro j. unfold cmpTruth. destruct HV as [HV|HV]; pose proof (gone _ HV) as G; rewrite G, ?andb_false_r; reflexivity. }
      destruct k; cbn [truth]; rewrite F; reflexivity.
    - intros p n w Hn HV. exists (XExists (XField r p)). split; [now apply w_exists, HF|]. split; [exact I|]. split; [|split; [discriminate|apply (here _ w HV)]].
      intros R. cbn [compilable operandOk]. rewrite R. split; [now left|apply lone_path].
    - intros p n Hn HV. exists (XExists (XField r p)). split; [now apply w_exists, HF|]. split; [exact I|]. split; [|split; [discriminate|now apply gone]].
      intros R. cbn [compilable operandOk]. rewrite R. split; [now left|apply lone_path].
    - intros p n Hn HV. exists (XNotExists (XField r p)). split; [now apply w_notexists, HF|]. split; [exact I|].
      split; [|split; [discriminate|cbn [truth]; now rewrite gone]].
      intros R. cbn [compilable operandOk]. rewrite R. split; [reflexivity|]. split; [now left|apply lone_path].
    - intros p n w Hn HV. exists (XNotExists (XField r p)). split; [now apply w_notexists, HF|]. split; [exact I|].
      split; [|split; [discriminate|cbn [truth]; now rewrite (proj1 (here _ w HV))]].
      intros R. cbn [compilable operandOk]. rewrite R. split; [reflexivity|]. split; [now left|apply lone_path].
    - intros v b _ (e & W & B & C & _ & T). exists (XNot e). split; [now apply w_not|]. split; [exact B|]. split; [exact C|]. split; [discriminate|].
      cbn [truth]. now rewrite T.
    - intros v vs bs _ (es & W & B & C & T). assert (es <> []) as NE by (intros ->; inversion W). exists (XAnd es). split; [now apply w_and|]. split; [now apply basic_and|].
      split; [intro R; apply compilable_and; split; auto|]. split; [discriminate|]. rewrite <- T, FA. reflexivity.
    - intros v vs bs _ (es & W & B & C & T). assert (es <> []) as NE by (intros ->; inversion W). exists (XOr es). split; [now apply w_or|]. split; [now apply basic_or|].
      split; [intro R; apply compilable_or; split; auto|]. split; [discriminate|]. rewrite <- T, FE. reflexivity.
    - exists []. repeat constructor.
    - intros v b vs bs _ (e & W & B & C & _ & T) _ (es & W' & B' & C' & T'). exists (e :: es). split; [now constructor|]. split; [now constructor|].
      split; [split; auto|]. cbn [map]. now rewrite T, T'.
  Qed.
End Stands.
Lemma basic_found : forall doc e, basic e -> loopsFound doc e.
Proof.
  intros doc. induction e as [| |g|sa|sa|sa|a IH|l IH|l IH|r p|n l IH|m v i s IHi IHs|a IH|a IH|k l r IHl IHr] using expr_ind'; intro X; try exact I; try contradiction.
  - now apply IH.
  - apply basic_and in X. cbn [loopsFound]. revert X. induction IH as [|x l Hx _ IHl]; intro X; auto. inversion X; subst. split; [now apply Hx|now apply IHl].
  - apply basic_or in X. cbn [loopsFound]. revert X. induction IH as [|x l Hx _ IHl]; intro X; auto. inversion X; subst. split; [now apply Hx|now apply IHl].
Qed.


(** ** Loop bodies without negations *)
Section Body.
  Variables (o : oracles) (r : nat).
  Hypothesis HR : r <> O.
  Lemma body_refs : forall e, posE r e -> forall f, In f (frefs e) -> fst f = r.
  Proof.
    induction e as [| |g|sa|sa|sa|a IH|l IH|l IH|r' p|n l IH|m v i s IHi IHs|a IH|a IH|k l t IHl IHr] using expr_ind'; intro X; try contradiction.
    - apply pos_and in X as [_ X]. cbn [frefs]. intros f HI. apply in_flat_map in HI as (e & He & HI). rewrite Forall_forall in X, IH. eapply IH; eauto.
    - apply pos_or in X as [_ X]. cbn [frefs]. intros f HI. apply in_flat_map in HI as (e & He & HI). rewrite Forall_forall in X, IH. eapply IH; eauto.
    - destruct a; try contradiction. cbn in X. subst. intros f [<-|[]]. reflexivity.
    - destruct l; try contradiction. destruct t; try contradiction. cbn [posE] in X. destruct X as [-> _]. intros f [<-|[]]. reflexivity.
  Qed.
  Lemma body_paths : forall e, posE r e -> pathsOf 0 e = [].
  Proof.
    intros e X. unfold pathsOf. pose proof (body_refs e X) as H. induction (frefs e) as [|f l IH]; auto. cbn [filter].
    rewrite (H f (or_introl eq_refl)). destruct (Nat.eqb_spec r 0); [contradiction|]. apply IH. intros g Hg. apply H. now right.
  Qed.
  Lemma own_path : forall p, pathsOf r (XExists (XField r p)) = [p].
  Proof. intro p. unfold pathsOf. cbn [frefs filter fst]. now rewrite Nat.eqb_refl. Qed.
  Lemma cmp_path : forall k p y, pathsOf r (XCmp k (XField r p) (XValue y)) = [p].
  Proof. intros. unfold pathsOf. cbn [frefs app filter fst]. now rewrite Nat.eqb_refl. Qed.
  Lemma not_two : forall p : list bytes, ~ two [p].
  Proof. intros p (a & b & [<-|[]] & [<-|[]] & H). now apply H. Qed.
  Lemma body_compiles : forall e, posE r e -> compilable o r e.
  Proof.
    induction e as [| |g|sa|sa|sa|a IH|l IH|l IH|r' p|n l IH|m v i s IHi IHs|a IH|a IH|k l t IHl IHr] using expr_ind'; intro X; try contradiction.
    - apply pos_and in X as [NE X]. apply compilable_and. split; auto. apply allC_forall. rewrite Forall_forall in *. auto.
    - apply pos_or in X as [NE X]. apply compilable_or. split; auto. apply allC_forall. rewrite Forall_forall in *. auto.
    - destruct a as [| |g|sa|sa|sa|a|l|l|r' p|n l|m v i s|a|a|k l t]; try contradiction. cbn [posE] in X. subst r'. cbn [compilable operandOk]. split; [now right|]. change (pathsOf r (XField r p)) with (pathsOf r (XExists (XField r p))). rewrite own_path. apply lone_path.
    - destruct l as [| |g|sa|sa|sa|a|l|l|r' p|n l|m v i s|a|a|k' l t']; try contradiction. destruct t; try contradiction. cbn [posE] in X. destruct X as [-> _].
      cbn [compilable operandOk]. split; [now right|]. split; [cbn [constRef]; eauto|]. rewrite cmp_path. apply lone_path.
  Qed.
  Lemma body_regular : forall P e, posE r e -> regular P r e.
  Proof.
    intro P. induction e as [| |g|sa|sa|sa|a IH|l IH|l IH|r' p|n l IH|m v i s IHi IHs|a IH|a IH|k l t IHl IHr] using expr_ind'; intro X; try contradiction.
    - apply pos_and in X as [NE X]. apply reg_and. rewrite Forall_forall in *. auto.
    - apply pos_or in X as [NE X]. apply reg_or. rewrite Forall_forall in *. auto.
    - destruct a; try contradiction. exact I.
    - destruct l; try contradiction. destruct t; try contradiction. split; exact I.
  Qed.
  Lemma body_tame : forall doc cur e, solid cur -> posE r e -> tame doc r cur e.
  Proof.
    intros doc cur e HS.
    assert (forall e p, pathsOf r e = [p] -> atomTame r cur e) as A.
    { intros e' p E. unfold atomTame. rewrite E. split; [intros q _ w Ew; apply solid_empty; eapply solid_at; eauto|]. split; [discriminate|]. intro T. destruct (not_two p T). }
    induction e as [| |g|sa|sa|sa|a IH|l IH|l IH|r' p|n l IH|m v i s IHi IHs|a IH|a IH|k l t IHl IHr] using expr_ind'; intro X; try contradiction.
    - apply pos_and in X as [NE X]. apply tame_and. rewrite Forall_forall in *. auto.
    - apply pos_or in X as [NE X]. apply tame_or. rewrite Forall_forall in *. auto.
    - destruct a as [| |g|sa|sa|sa|a|l|l|r' p|n l|m v i s|a|a|k l t]; try contradiction. cbn [posE] in X. subst r'. cbn [tame]. eapply A, own_path.
    - destruct l as [| |g|sa|sa|sa|a|l|l|r' p|n l|m v i s|a|a|k' l t']; try contradiction. destruct t; try contradiction. cbn [posE] in X. destruct X as [-> _].
      cbn [tame]. eapply A, cmp_path.
  Qed.
  Lemma body_fair : forall doc cur e, posE r e -> fair doc false r cur e.
  Proof.
    intros doc cur. induction e as [| |g|sa|sa|sa|a IH|l IH|l IH|r' p|n l IH|m v i s IHi IHs|a IH|a IH|k l t IHl IHr] using expr_ind'; intro X; try contradiction.
    - apply pos_and in X as [NE X]. apply fair_and. rewrite Forall_forall in *. auto.
    - apply pos_or in X as [NE X]. apply fair_or. rewrite Forall_forall in *. auto.
    - destruct a; try contradiction. cbn [fair]. intros q [].
    - destruct l; try contradiction. destruct t; try contradiction. cbn [posE] in X. destruct X as [_ NK]. destruct k; try contradiction; cbn [fair]; intros q [].
  Qed.
End Body.

(** ** Final statements *)

(** The filter is accepted, its expression compiles, and matching gives what the
    filter says of the document. *)
Definition answersJson (o : oracles) (v : jv) (txt : bytes) (b : bool) : Prop :=
  exists p e, parseJson o v = Ok p /\ toExpr p = Some e /\ answers o [e] txt b (fun _ => b).
Lemma doc_names : forall o p n, ofDoc p n -> written (timeValid o) (XField 0 p) n.
Proof. intros o p n [c q]. apply w_doc. Qed.
Lemma var_names : forall o f r, isNat f r -> forall p n, ofVar f p n -> written (timeValid o) (XField r p) n.
Proof. intros o f r HI p n [q]. now apply w_field. Qed.
Theorem C80_says : forall o v b w1 doc w2, parsesDecimals o -> printsAscii (o_isPrint o) -> says ofDoc doc v b ->
  ws w1 -> wf_cst doc -> ws w2 -> named doc -> container doc -> solid doc ->
  answersJson o v (doc_text w1 doc w2) b.
Proof.
  intros o v b w1 doc w2 HP HPA HS W1 WD W2 HN HC HO.
  destruct (proj1 (says_stands o doc doc 0 ofDoc HP HPA (fun _ => eq_refl) WD HN (doc_names o)) v b HS) as (e & W & B & C & NF & T).
  destruct (C39_roundtrip o e v W) as (p & E & F). exists p, e. split; auto. split; auto. subst b. eapply one_answer; [|reflexivity]. apply C19_basic; auto using named_distinct.
  destruct doc; cbn [readable]; auto; [destruct HC|]. constructor; auto using basic_found.
Qed.
(** No filter says two things. *)
Theorem C80_decided : forall o v b b' doc, parsesDecimals o -> printsAscii (o_isPrint o) -> wf_cst doc -> named doc -> says ofDoc doc v b -> says ofDoc doc v b' -> b = b'.
Proof.
  intros o v b b' doc HP HPA WD HN H H'.
  destruct (proj1 (says_stands o doc doc 0 ofDoc HP HPA (fun _ => eq_refl) WD HN (doc_names o)) v b H) as (e & W & _ & _ & _ & T).
  destruct (proj1 (says_stands o doc doc 0 ofDoc HP HPA (fun _ => eq_refl) WD HN (doc_names o)) v b' H') as (e' & W' & _ & _ & _ & T').
  rewrite (C39_unambiguous o e e' v W W') in T. congruence.
Qed.

Lemma value_inside : forall p v w, valueAt p v w -> wf_cst v -> named v -> wf_cst w /\ named w.
Proof. induction 1; auto. intros WV NV. apply IHvalueAt; [eapply wf_child; eauto|eapply named_child; eauto]. Qed.
Lemma combines_quant : forall m bs b, combines m bs b -> b = quant m bs.
Proof.
  intros m bs b H. apply truth_is. unfold combines in H. rewrite H. clear H.
  assert (existsb (fun b => b) bs = true <-> In true bs) as A by (rewrite existsb_exists; split; [intros (x & HI & ->); auto|eauto]).
  assert (forallb (fun b => b) bs = true <-> ~ In false bs) as B.
  { rewrite forallb_forall. split; [intros K HI; discriminate (K _ HI)|intros K [|] HI; auto; contradiction]. }
  destruct m; cbn [quant]; rewrite ?andb_true_iff, ?A, ?B; reflexivity.
Qed.
Lemma body_vac : forall r e, posE r e -> vac e = false.
Proof.
  intro r. induction e as [| |g|sa|sa|sa|a IH|l IH|l IH|r' p|n l IH|m v i s IHi IHs|a IH|a IH|k l t IHl IHr] using expr_ind'; intro X; try contradiction.
  - apply pos_and in X as [NE X]. destruct l as [|x l]; [contradiction|]. inversion X; inversion IH; subst. cbn [vac forallb]. now rewrite (H5 H1).
  - apply pos_or in X as [_ X]. cbn [vac]. revert X. induction IH as [|x l Hx _ IHl]; intro X; auto. inversion X; subst. cbn [existsb]. rewrite Hx by auto. now apply IHl.
  - destruct a; try contradiction. reflexivity.
  - destruct l; try contradiction. destruct t; try contradiction. cbn [posE] in X. destruct X as [_ NK]. destruct k; try contradiction; reflexivity.
Qed.
Lemma affirms_body : forall o r (names : list bytes -> jv -> Prop), (forall p n, names p n -> written (timeValid o) (XField r p) n) ->
  (forall v, affirms names v -> exists e, written (timeValid o) e v /\ posE r e)
  /\ (forall vs, affirmAll names vs -> exists es, writtenAll (timeValid o) es vs /\ Forall (posE r) es).
Proof.
  intros o r names HF. apply (affirms_mutind names (fun v _ => exists e, written (timeValid o) e v /\ posE r e) (fun vs _ => exists es, writtenAll (timeValid o) es vs /\ Forall (posE r) es)).
  - intros k p n y Hn HS HK. exists (XCmp k (XField r p) (XValue (valueOf y))). split; [apply w_cmp; [now apply HF|now apply written_value]|cbn [posE]; auto].
  - intros p n Hn. exists (XExists (XField r p)). split; [now apply w_exists, HF|reflexivity].
  - intros v vs _ (es & W & P). exists (XAnd es). split; [now apply w_and|]. apply pos_and. split; auto. intros ->. inversion W.
  - intros v vs _ (es & W & P). exists (XOr es). split; [now apply w_or|]. apply pos_or. split; auto. intros ->. inversion W.
  - exists []. split; constructor.
  - intros v vs _ (e & W & P) _ (es & W' & P'). exists (e :: es). split; constructor; auto.
Qed.
(** What the matcher answers for a loop is its truth. *)
Lemma loop_answer : forall o m f r p n body e w1 doc w2, isNat f r -> r <> O -> ofDoc p n -> written (timeValid o) e body -> posE r e ->
  ws w1 -> wf_cst doc -> ws w2 -> named doc -> container doc -> solid doc ->
  answersJson o (JArr [word (loopWord m); JNum f; n; body]) (doc_text w1 doc w2) (truth o doc doc (XLoop m r (XField 0 p) e)).
Proof.
  intros o m f r p n body e w1 doc w2 HI HR HD We Pe W1 WD W2 HN HC HO.
  set (L := XLoop m r (XField 0 p) e). assert (written (timeValid o) L (JArr [word (loopWord m); JNum f; n; body])) as WL by (apply w_loop; auto using doc_names).
  destruct (C39_roundtrip o L _ WL) as (q & E & F). exists q, L. split; auto. split; auto.
  pose proof (body_paths r HR e Pe) as BP.
  assert (pathsOf 0 L = [p]) as PL.
  { unfold pathsOf in *. cbn [L frefs app filter map fst snd Nat.eqb]. now rewrite BP. }
  assert (loopPaths 0 p e = [p]) as LP by (unfold loopPaths; cbn [Nat.eqb]; now rewrite BP).
  pose proof (match_truth o [L] w1 doc w2) as X. cbn [existsb] in X. rewrite orb_false_r in X. eapply one_answer; [apply X; auto|reflexivity].
  - split; [exists L; split; [now left|discriminate]|]. split; constructor; try constructor.
    + exact HR.
    + split; [exists p; split; [reflexivity|rewrite LP; apply lone_path]|now apply body_compiles].
    + assert (pathsOf 0 (XOr [L]) = [p]) as -> by (rewrite <- PL; unfold pathsOf; cbn [frefs flat_map]; now rewrite app_nil_r). intros j t. apply lone_path. now left.
    + split; [intros _; rewrite BP; intros []|now apply body_regular].
  - split; [|split; [now apply named_distinct|]].
    + destruct doc; cbn [readable]; auto; [destruct HC|]. constructor; [|constructor]. cbn [L loopsFound]. rewrite LP. intro K. destruct (not_two p K).
    + split; [constructor; [|constructor]|split; (constructor; [|constructor])].
      * cbn [L tame]. split; [intros _; rewrite BP, LP; split; [intros ? []|intro K; destruct (not_two p K)]|].
        intros es w x EA Hx. apply body_tame; auto. pose proof (solid_at p doc _ HO EA) as SA. apply solid_arr in SA as [_ SA]. rewrite Forall_forall in SA. auto.
      * cbn [L looped]. right. eapply body_vac; eauto.
      * cbn [L fairTop]. intros es w x EA Hx. now apply body_fair.
Qed.
(** A loop over an array of the document. *)
Theorem C80_loop : forall o v b w1 doc w2, parsesDecimals o -> printsAscii (o_isPrint o) -> saysLoop doc v b ->
  ws w1 -> wf_cst doc -> ws w2 -> named doc -> container doc -> solid doc ->
  answersJson o v (doc_text w1 doc w2) b.
Proof.
  intros o v b w1 doc w2 HP HPA HS W1 WD W2 HN HC HO. destruct HS as [m f r p n body es w bs b HI HR HD HV HB HE HCo|m f r p n body HI HR HD HV HB];
    destruct (proj1 (affirms_body o r (ofVar f) (var_names o f r HI)) body HB) as (e & We & Pe).
  - assert (truth o doc doc (XLoop m r (XField 0 p) e) = b) as <-; [|now apply loop_answer].
    assert (at_ p doc = Some (CArr es w)) as HA by (apply C19_paths; auto).
    destruct (value_inside p doc _ HV WD HN) as [WA NA]. apply wf_arr in WA as [_ WA]. rewrite Forall_forall in WA. inversion NA as [|es' w' NE|]; subst.
    assert (map (fun x => truth o doc (e_v x) e) es = bs) as ET.
    { clear - HE We WA NE HP HPA HR HI. induction HE as [|x c es bs Hx HE IH]; auto. cbn [map]. f_equal; [|apply IH; intros; [apply WA|apply NE]; now right].
      destruct (proj1 (says_stands o doc (e_v x) r (ofVar f) HP HPA (fun E => match HR E with end) ltac:(apply WA; now left) ltac:(apply NE; now left) (var_names o f r HI)) _ _ Hx) as (e' & We' & _ & _ & _ & T).
      now rewrite (C39_unambiguous o e e' body We We'). }
    cbn [truth]. unfold fieldAt. cbn [Nat.eqb]. rewrite HA, ET. symmetry. now apply combines_quant.
  - assert (truth o doc doc (XLoop m r (XField 0 p) e) = false) as <-; [|now apply loop_answer].
    cbn [truth]. unfold fieldAt. cbn [Nat.eqb]. destruct (at_ p doc) as [[t x|es w|ms w]|] eqn:E; auto. apply C19_paths in E; auto. destruct (HV es w E).
Qed.

(** ** Cases *)

(** [["and", ["lessthan", ["field","a"], ["value",1]], ["not", ["exists", ["field","c"]]]]] of [{"a":0.1,"b":0.2}]. *)
Definition one1 : float := Z2f 1.
Definition exJ : jv := JArr [word "and"; JArr [word "lessthan"; fieldJ [s2b "a"%string]; valueJ (JNum one1)]; JArr [word "not"; JArr [word "exists"; fieldJ [s2b "c"%string]]]].
Example C80_case : says ofDoc docS exJ true /\ wf_cst docS /\ named docS /\ container docS /\ solid docS.
Proof.
  destruct (C79_filter_case numOracle) as (_ & WD & HN & _). split; [|split; [exact WD|split; [exact HN|split; [exact I|]]]].
  - apply (sy_and ofDoc docS _ _ [true; negb false]). constructor; [|constructor; [|constructor]].
    + apply (sy_number ofDoc docS CLt [s2b "a"%string] _ TNumber (s2b "0.1"%string) (decimal [48%N] [49]%N 0) one1 1); try discriminate.
      * constructor.
      * econstructor; [|constructor]. apply (ch_mem _ _ (mb "a"%string (lit "0.1"))); [now left|exact (ni_plain (s2b "a"%string))].
      * apply nl_dec. apply (num_pos [48%N] [46; 49]%N [49]%N [] 0); [constructor|constructor; [split; discriminate|constructor]|constructor].
      * destruct (Z2f_exact 1 ltac:(lia)) as [F V]. apply (nearest_eqv _ (valQ (Z2f 1))); [now rewrite V|]. now apply nearest_self.
      * split; [exists 100000%Z; reflexivity|vm_compute; discriminate].
      * split; [exists 1000000%Z; reflexivity|vm_compute; discriminate].
      * split; [intros _; vm_compute; reflexivity|reflexivity].
    + apply sy_not, (sy_exists_not ofDoc docS [s2b "c"%string]); [constructor|]. intros w HV. apply C19_paths in HV; auto. vm_compute in HV. discriminate.
  - vm_compute. repeat split; discriminate.
Qed.

(** [["anyin", 1, ["field","a"], ["equals", ["field",1], ["value","y"]]]] of [{"a":["x","y"]}]; with [everyin] it is false. *)
Definition docL : cst := obj [("a"%string, arr [lit """x"""; lit """y"""])].
Definition exLoop (m : lmode) : jv :=
  JArr [word (loopWord m); JNum one1; fieldJ [s2b "a"%string]; JArr [word "equals"; JArr [word "field"; JNum one1]; valueJ (JStr (s2b "y"%string))]].
Example C80_loop_case : saysLoop docL (exLoop LAny) true /\ saysLoop docL (exLoop LEvery) false /\ wf_cst docL /\ named docL /\ container docL /\ solid docL.
Proof.
  assert (forall c d, c = 120%N \/ c = 121%N -> (d = true <-> c = 121%N) ->
    says (ofVar one1) (CLit TString [34%N; c; 34%N]) (JArr [word "equals"; JArr [word "field"; JNum one1]; valueJ (JStr (s2b "y"%string))]) d) as H.
  { intros c d Hc Hd. apply (sy_equal (ofVar one1) _ [] _ TString [34%N; c; 34%N] [c]).
    - exact (ov one1 []).
    - constructor.
    - exact (ni_plain [c]).
    - constructor; [|constructor]. destruct Hc as [-> | ->]; reflexivity.
    - constructor; [reflexivity|constructor].
    - rewrite Hd. split; [intros ->; reflexivity|intro E; now injection E]. }
  assert (forall m b, combines m [false; true] b -> saysLoop docL (exLoop m) b) as X.
  { intros m b HC. apply (sl_loop docL m one1 1 [s2b "a"%string] _ _ [Elt [] [] (lit """x"""); Elt [] [] (lit """y""")] [] [false; true]); auto.
    - split; [lia|]. vm_compute. reflexivity.
    - constructor.
    - econstructor; [|constructor]. apply (ch_mem _ _ (mb "a"%string (arr [lit """x"""; lit """y"""]))); [now left|exact (ni_plain (s2b "a"%string))].
    - apply (af_cmp (ofVar one1) CEq []); [exact (ov one1 [])|exact I|discriminate].
    - constructor; [|constructor; [|constructor]]; (apply H; [auto|split; intro E; try discriminate E; reflexivity]). }
  split; [apply X; split; cbn; auto|]. split; [apply X; split; cbn; [discriminate|intro K; exfalso; apply K; now left]|].
  split; [apply wfb_ok; vm_compute; reflexivity|]. split; [|split; [exact I|vm_compute; repeat split; discriminate]].
  constructor.
  - intros m [<-|[]]. exists (s2b "a"%string). exact (ni_plain (s2b "a"%string)).
  - intros [|i] [|j] m m' k Hi Hj _ _; auto; [destruct j|destruct i|destruct i]; discriminate.
  - intros m [<-|[]]. constructor. intros e [<-|[<-|[]]]; constructor.
Qed.
(** Over a field that is not there. *)
Example C80_other_case : saysLoop docL (JArr [word "everyin"; JNum one1; fieldJ [s2b "b"%string]; JArr [word "exists"; JArr [word "field"; JNum one1]]]) false.
Proof.
  destruct C80_loop_case as (_ & _ & WD & HN & _). apply (sl_other docL LEvery one1 1 [s2b "b"%string]); auto.
  - split; [lia|]. vm_compute. reflexivity.
  - constructor.
  - intros es w HV. apply C19_paths in HV; auto. vm_compute in HV. discriminate.
  - apply (af_exists (ofVar one1) []). exact (ov one1 []).
Qed.
(** [["lessthan", ["field","a"], ["value","b"]]] of [{"a":"Zoe"}], and the libraries assumed. *)
Example C80_text_case : let doc := docA "Zoe" in parsesDecimals numOracle /\ printsAscii (o_isPrint numOracle)
  /\ says ofDoc doc (JArr [word "lessthan"; fieldJ [s2b "a"%string]; valueJ (JStr (s2b "b"%string))]) true /\ wf_cst doc /\ named doc /\ container doc /\ solid doc.
Proof.
  intro doc. destruct (docA_ok "Zoe" (s2b "Zoe"%string)) as (W & NM & V); [reflexivity|vm_compute; reflexivity|].
  split; [exact C70_libraries|]. split; [intros u H; apply N.leb_le; apply H|]. split; [|split; [exact W|split; [exact NM|split; [exact I|vm_compute; repeat split; discriminate]]]].
  eapply (sy_text ofDoc doc CLt [s2b "a"%string] _ TString _ (s2b "Zoe"%string)); [constructor|discriminate|exact V|apply ni_plain| | |].
  - repeat constructor; discriminate.
  - repeat constructor; discriminate.
  - split; auto. intros _. apply et_here. reflexivity.
Qed.
(** [["lessthan", ["field","a"], ["field","b"]]] of [{"a":0.1,"b":0.2}]. *)
Example C80_two_case : says ofDoc docS (JArr [word "lessthan"; fieldJ [s2b "a"%string]; fieldJ [s2b "b"%string]]) true.
Proof.
  apply (sy_numbers ofDoc docS CLt [s2b "a"%string] _ [s2b "b"%string] _ TNumber (s2b "0.1"%string) (decimal [48%N] [49]%N 0) TNumber (s2b "0.2"%string) (decimal [48%N] [50]%N 0)); try discriminate.
  - constructor.
  - constructor.
  - intros c r. split; intro E; discriminate E.
  - econstructor; [|constructor]. apply (ch_mem _ _ (mb "a"%string (lit "0.1"))); [now left|exact (ni_plain (s2b "a"%string))].
  - apply nl_dec. apply (num_pos [48%N] [46; 49]%N [49]%N [] 0); [constructor|constructor; [split; discriminate|constructor]|constructor].
  - econstructor; [|constructor]. apply (ch_mem _ _ (mb "b"%string (lit "0.2"))); [right; now left|exact (ni_plain (s2b "b"%string))].
  - apply nl_dec. apply (num_pos [48%N] [46; 50]%N [50]%N [] 0); [constructor|constructor; [split; discriminate|constructor]|constructor].
  - split; [exists 100000%Z; reflexivity|vm_compute; discriminate].
  - split; [exists 200000%Z; reflexivity|vm_compute; discriminate].
  - split; [intros _; vm_compute; reflexivity|reflexivity].
Qed.

Print Assumptions C80_says.
Print Assumptions C80_decided.
Print Assumptions C80_loop.
