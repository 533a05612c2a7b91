(** The trees the simple parser builds have no cycles. *)
From Coq Require Import String.
From Verif Require Import Base MTokenizer MLit MFastVal MMath MBinTree SEvents MExpr MExprJson MText MSimple PSimpleFuel PSimpleTerm.
From Coq Require Import List NArith ZArith Arith Lia Bool.
Import ListNotations.
Open Scope nat_scope.

Definition child (t : list pnode) (j i : nat) : Prop := exists n, nth_error t i = Some n /\ (pn_left n = Some j \/ pn_right n = Some j).
Definition between (lo hi : nat) (i : option nat) : Prop := match i with Some j => lo <= j < hi | None => True end.

(** What holds of a parser that started when there were [base] nodes. *)
Record grown (base : nat) (c : ctx) : Prop := {
  g_base : base <= length (c_tree c);
  g_sub : between base (length (c_tree c)) (sc_sub (c_sub c));
  g_op : between base (length (c_tree c)) (sc_op (c_sub c));
  g_closed : forall i j, base <= i -> child (c_tree c) j i -> base <= j < length (c_tree c);
  g_acc : forall i, base <= i -> Acc (child (c_tree c)) i }.
Definition below (base : nat) (t t' : list pnode) : Prop := forall i, i < base -> nth_error t' i = nth_error t i.

Lemma child_range : forall t j i, child t j i -> i < length t.
Proof. intros t j i [n [H _]]. apply nth_error_Some. congruence. Qed.
Lemma acc_out : forall t i, length t <= i -> Acc (child t) i.
Proof. intros t i H. constructor. intros j HJ. apply child_range in HJ. lia. Qed.
(** Edges that were there, or lead to a node without bad descendants. *)
Lemma acc_mono : forall t t' (P : nat -> Prop), (forall j, P j -> Acc (child t') j) -> (forall i j, child t' j i -> child t j i \/ P j) -> forall i, Acc (child t) i -> Acc (child t') i.
Proof. intros t t' P HP HE i H. induction H as [i _ IH]. constructor. intros j HJ. destruct (HE _ _ HJ) as [H|H]; auto. Qed.
Lemma setNode_inv : forall t i f t', setNode t i f = Ok t' -> exists n, nth_error t i = Some n /\ i < length t /\ t' = upd t i (f n).
Proof.
  intros t i f t' H. unfold setNode in H. destruct (nth_error t i) as [n|] eqn:E; [|discriminate]. injection H as <-. exists n. split; auto. split; auto. apply nth_error_Some. congruence.
Qed.
Lemma nth_upd_case : forall (A : Type) (l : list A) i j x, i < length l -> nth_error (upd l i x) j = if Nat.eqb j i then Some x else nth_error l j.
Proof.
  intros A l i j x H. destruct (Nat.eqb_spec j i) as [-> | NE]; [now apply nth_error_upd_same|apply nth_error_upd_other; congruence].
Qed.
(** Parents are not children. *)
Lemma child_parent : forall t i n p j k, nth_error t i = Some n -> child (upd t i (nParent p n)) j k <-> child t j k.
Proof.
  intros t i n p j k H. assert (i < length t) as HL by (apply nth_error_Some; congruence). unfold child. split; intros [m [H1 H2]].
  - rewrite nth_upd_case in H1 by exact HL. destruct (Nat.eqb_spec k i) as [-> | NE]; [injection H1 as <-; exists n; auto|eauto].
  - rewrite nth_upd_case by exact HL. destruct (Nat.eqb_spec k i) as [-> | NE]; [|eauto]. rewrite H in H1. injection H1 as <-. eexists. split; [reflexivity|]. exact H2.
Qed.
Lemma child_right : forall t i n r j k, nth_error t i = Some n -> child (upd t i (nRight (Some r) n)) j k -> child t j k \/ (k = i /\ j = r).
Proof.
  intros t i n r j k H [m [H1 H2]]. assert (i < length t) as HL by (apply nth_error_Some; congruence). rewrite nth_upd_case in H1 by exact HL.
  destruct (Nat.eqb_spec k i) as [-> | NE]; [|left; exists m; auto]. injection H1 as <-. cbn [nRight pn_left pn_right] in H2.
  destruct H2 as [H2|H2]; [left; exists n; auto|injection H2 as <-; auto].
Qed.
Lemma below_upd : forall base t i x, base <= i -> below base t (upd t i x).
Proof. intros base t i x H j HJ. apply nth_error_upd_other. lia. Qed.
Lemma below_trans : forall base a b c, below base a b -> below base b c -> below base a c.
Proof. intros base a b c H1 H2 i Hi. rewrite H2, H1; auto. Qed.
Lemma below_app : forall base t x, base <= length t -> below base t (t ++ x).
Proof. intros base t x H i Hi. apply nth_error_app1. lia. Qed.
Lemma child_app : forall t n j k, child (t ++ [n]) j k -> child t j k \/ (k = length t /\ (pn_left n = Some j \/ pn_right n = Some j)).
Proof.
  intros t n j k [m [H1 H2]]. destruct (Nat.lt_ge_cases k (length t)) as [H|H].
  - rewrite nth_error_app1 in H1 by exact H. left. exists m. auto.
  - rewrite nth_error_app2 in H1 by exact H. destruct (k - length t) as [|d] eqn:E; cbn in H1; [injection H1 as <-; right; split; [lia|exact H2]|destruct d; discriminate].
Qed.
Definition leaf (ty : ttype) (data : bytes) : pnode := {| pn_type := ty; pn_data := data; pn_parent := None; pn_left := None; pn_right := None |}.
Lemma child_leaf : forall t ty d j k, child (t ++ [leaf ty d]) j k -> child t j k.
Proof. intros t ty d j k H. apply child_app in H as [H|[_ [H|H]]]; [exact H|discriminate H..]. Qed.

Lemma between_le : forall lo hi hi' i, between lo hi i -> hi <= hi' -> between lo hi' i.
Proof. intros lo hi hi' [j|] H HH; cbn [between] in *; auto. lia. Qed.
Lemma insertNode_grown : forall base c ty d c', insertNode c ty d = Ok c' -> grown base c -> grown base c' /\ below base (c_tree c) (c_tree c').
Proof.
  intros base c ty d c' H G. destruct G as [GB GS GO GC GA]. unfold insertNode in H. cbv zeta in H. fold (leaf ty d) in H. set (t := c_tree c) in *. set (i := length t) in *.
  assert (length (t ++ [leaf ty d]) = S i) as HL by (rewrite app_length; cbn [length]; unfold i; lia).
  assert (forall k, base <= k -> Acc (child (t ++ [leaf ty d])) k) as GA'.
  { intros k HK. apply (acc_mono t _ (fun _ => False)); [tauto| |now apply GA]. intros x y HX. left. eapply child_leaf. exact HX. }
  assert (forall x y, base <= x -> child (t ++ [leaf ty d]) y x -> base <= y < i) as GC' by (intros x y HX HY; apply child_leaf in HY; eapply GC; eauto).
  assert (forall t2, (forall x y, child t2 y x -> child (t ++ [leaf ty d]) y x \/ (x = i /\ exists r, sc_sub (c_sub c) = Some r /\ y = r)) -> length t2 = S i -> below base (t ++ [leaf ty d]) t2 ->
            (forall x y, base <= x -> child t2 y x -> base <= y < S i) /\ (forall x, base <= x -> Acc (child t2) x)) as HOp.
  { intros t2 HE HL2 HB. assert (forall x y, base <= x -> child t2 y x -> base <= y < S i) as HC.
    { intros x y HX HY. destruct (HE _ _ HY) as [H1|[-> [r [H1 ->]]]]; [specialize (GC' _ _ HX H1); lia|]. rewrite H1 in GS. cbn [between] in GS. lia. }
    split; [exact HC|]. assert (forall x, base <= x -> x < i -> Acc (child t2) x) as HA.
    { intros x HX HI. pose proof (GA' x HX) as A. revert HX HI. induction A as [x _ IHx]. intros HX HI. constructor. intros y HY. destruct (HE _ _ HY) as [H1|[-> _]]; [|lia].
      specialize (GC' _ _ HX H1). apply IHx; auto; lia. }
    intros x HX. destruct (Nat.lt_trichotomy x i) as [HI|[->|HI]]; [now apply HA| |apply acc_out; lia].
    constructor. intros y HY. destruct (HE _ _ HY) as [H1|[_ [r [H1 ->]]]]; [specialize (GC' _ _ HX H1); apply HA; lia|]. rewrite H1 in GS. cbn [between] in GS. apply HA; lia. }
  assert (forall tL tP, setNode (t ++ [leaf ty d]) i (nLeft (sc_sub (c_sub c))) = Ok tL -> setNodeAt tL (sc_sub (c_sub c)) (nParent (Some i)) = Ok tP ->
     length tP = S i /\ below base t tP /\ (forall x y, base <= x -> child tP y x -> base <= y < S i) /\ (forall x, base <= x -> Acc (child tP) x)) as HChain.
  { intros tL tP H1 H2. apply setNode_inv in H1 as [n1 [N1 [L1 ->]]]. assert (n1 = leaf ty d) as -> by (rewrite nth_error_app2 in N1 by lia; unfold i in N1; rewrite Nat.sub_diag in N1; cbn in N1; congruence).
    destruct (sc_sub (c_sub c)) as [r|] eqn:ES; [|discriminate]. cbn [between] in GS. cbn [setNodeAt] in H2. apply setNode_inv in H2 as [n2 [N2 [L2 ->]]].
    assert (length (upd (upd (t ++ [leaf ty d]) i (nLeft (Some r) (leaf ty d))) r (nParent (Some i) n2)) = S i) as HLP by (rewrite !upd_length; exact HL).
    assert (below base (t ++ [leaf ty d]) (upd (upd (t ++ [leaf ty d]) i (nLeft (Some r) (leaf ty d))) r (nParent (Some i) n2))) as HB
      by (eapply below_trans; [apply (below_upd base _ i); unfold i; lia|apply below_upd; lia]).
    split; [exact HLP|]. split; [eapply below_trans; [apply below_app; exact GB|exact HB]|]. apply HOp; auto.
    intros x y HX. apply child_parent in HX; [|exact N2]. destruct HX as [m [M1 M2]]. rewrite nth_upd_case in M1 by lia.
    destruct (Nat.eqb_spec x i) as [-> | NE]; [|left; exists m; auto]. injection M1 as <-. cbn in M2. destruct M2 as [M2|M2]; [|discriminate]. injection M2 as <-. right. eauto. }
  destruct (sc_mode (c_sub c)).
  - injection H as <-. split; [|apply below_app; exact GB].
    split; cbn [withOuts withTree withSub c_tree c_sub sIdx sc_sub sc_op]; rewrite ?HL; [lia|cbn [between]; lia|eapply between_le; [exact GO|]; lia| |exact GA'].
    intros x y HX HY. specialize (GC' _ _ HX HY). lia.
  - destruct (setNode _ i _) as [tL| | |] eqn:E1; cbn [obind] in H; try discriminate. destruct (setNodeAt _ _ _) as [tP| | |] eqn:E2; cbn [obind] in H; try discriminate. injection H as <-.
    destruct (HChain _ _ eq_refl E2) as [A [B [C D]]]. split; [|exact B].
    split; cbn [withOuts withTree withSub c_tree c_sub sIdx sc_sub sc_op]; rewrite ?A; [lia|cbn [between]; lia|cbn [between]; lia|exact C|exact D].
  - destruct (setNode _ i _) as [tL| | |] eqn:E1; cbn [obind] in H; try discriminate. destruct (setNodeAt _ _ _) as [tP| | |] eqn:E2; cbn [obind] in H; try discriminate. injection H as <-.
    apply setNode_inv in E1 as [n1 [N1 [L1 ->]]]. destruct (sc_op (c_sub c)) as [r|] eqn:ES; [|discriminate]. cbn [between] in GO. cbn [setNodeAt] in E2. apply setNode_inv in E2 as [n2 [N2 [L2 ->]]].
    assert (length (upd (upd (t ++ [leaf ty d]) i (nParent (Some r) n1)) r (nRight (Some i) n2)) = S i) as HLP by (rewrite !upd_length; exact HL).
    assert (forall x y, child (upd (upd (t ++ [leaf ty d]) i (nParent (Some r) n1)) r (nRight (Some i) n2)) y x -> child t y x \/ (x = r /\ y = i)) as HE.
    { intros x y HX. apply child_right in HX; [|exact N2]. destruct HX as [HX|HX]; auto. apply child_parent in HX; [|exact N1]. left. eapply child_leaf. exact HX. }
    split; [|cbn [withOuts withTree withSub c_tree]; eapply below_trans; [apply (below_app base t [leaf ty d]); exact GB|]; eapply below_trans; [apply (below_upd base _ i); unfold i; lia|apply below_upd; lia]].
    split; cbn [withOuts withTree withSub c_tree c_sub sIdx sc_sub sc_op]; rewrite ?HLP; [lia|cbn [between]; lia|cbn [between]; lia| |].
    + intros x y HX HY. destruct (HE _ _ HY) as [HC|[-> ->]]; [specialize (GC _ _ HX HC); lia|lia].
    + intros x HX. apply (acc_mono t _ (fun j => j = i)); [|exact (fun x y H => match HE x y H with or_introl a => or_introl a | or_intror b => or_intror (proj2 b) end)|now apply GA].
      intros j ->. constructor. intros y HY. destruct (HE _ _ HY) as [HC|[HC _]]; [apply child_range in HC; unfold i in HC; lia|]. unfold i in HC. lia.
  - destruct (setNode _ i _) as [tL| | |] eqn:E1; cbn [obind] in H; try discriminate. destruct (setNodeAt _ _ _) as [tP| | |] eqn:E2; cbn [obind] in H; try discriminate. injection H as <-.
    destruct (HChain _ _ eq_refl E2) as [A [B [C D]]]. split; [|exact B].
    split; cbn [withOuts withTree withSub c_tree c_sub sIdx sc_sub sc_op]; rewrite ?A; [lia|cbn [between]; lia|cbn [between]; lia|exact C|exact D].
Qed.

Lemma child_below : forall base t t' j i, below base t t' -> i < base -> child t' j i <-> child t j i.
Proof. intros base t t' j i HB Hi. unfold child. rewrite (HB i Hi). reflexivity. Qed.
(** The tree of an inner parser is a tree for the outer one. *)
Lemma grown_outer : forall base c c3, grown base c -> grown (length (c_tree c)) c3 -> below (length (c_tree c)) (c_tree c) (c_tree c3) ->
  (forall i j, base <= i -> child (c_tree c3) j i -> base <= j < length (c_tree c3)) /\ (forall i, base <= i -> Acc (child (c_tree c3)) i) /\ below base (c_tree c) (c_tree c3).
Proof.
  intros base c c3 [GB GS GO GC GA] [HB HS HO HC HA] HW. split; [|split].
  - intros i j Hi HJ. destruct (Nat.lt_ge_cases i (length (c_tree c))) as [H|H]; [|specialize (HC _ _ H HJ); lia].
    apply (child_below _ _ _ _ _ HW H) in HJ. specialize (GC _ _ Hi HJ). lia.
  - intros i Hi. destruct (Nat.lt_ge_cases i (length (c_tree c))) as [H|H]; [|now apply HA].
    pose proof (GA i Hi) as A. induction A as [i _ IH]. constructor. intros j HJ. apply (child_below _ _ _ _ _ HW H) in HJ. destruct (GC _ _ Hi HJ) as [G1 G2]. now apply IH.
  - intros i Hi. apply HW. lia.
Qed.
Lemma merge_grown : forall base c c3 c4, merge c3 (c_sub c) = Ok (c4, SNil) -> grown base c -> grown (length (c_tree c)) c3 -> below (length (c_tree c)) (c_tree c) (c_tree c3) ->
  grown base c4 /\ below base (c_tree c) (c_tree c4).
Proof.
  intros base c c3 c4 H G G3 HW. destruct (grown_outer base c c3 G G3 HW) as [OC [OA OB]].
  destruct G as [GB GS GO GC GA]. destruct G3 as [HB HS HO HC HA]. set (t := c_tree c3) in *.
  assert (grown base c3) as GC3.
  { split; fold t; [lia|destruct (sc_sub (c_sub c3)); cbn [between] in *; auto; lia|destruct (sc_op (c_sub c3)); cbn [between] in *; auto; lia|exact OC|exact OA]. }
  unfold merge in H. destruct (isUnused (c_sub c)); [injection H as <-; auto|]. destruct (_ && _); [injection H as <-; auto|].
  destruct (sc_op (c_sub c)) as [a|] eqn:EA; [|discriminate]. destruct (sc_op (c_sub c3)) as [b|] eqn:EB; [|discriminate]. cbn [between] in GO, HO. destruct (_ || _); [discriminate|].
  destruct (idx (c_tree c3) a) as [na| | |]; cbn [obind] in H; try discriminate. destruct (pn_right na); [discriminate|].
  destruct (setNode (c_tree c3) a _) as [t1| | |] eqn:E1; cbn [obind] in H; try discriminate. destruct (idx t1 b) as [nb| | |]; cbn [obind] in H; try discriminate.
  destruct (pn_parent nb); [discriminate|]. destruct (setNode t1 b _) as [t2| | |] eqn:E2; cbn [obind] in H; try discriminate.
  destruct (idx t2 a) as [n2| | |]; cbn [obind] in H; try discriminate. injection H as <-.
  apply setNode_inv in E1 as [n1 [N1 [L1 ->]]]. apply setNode_inv in E2 as [n3 [N3 [L3 ->]]]. fold t in N1, L1, N3, L3 |- *.
  set (u := upd (upd t a (nRight (Some b) n1)) b (nParent (Some a) n3)).
  assert (length u = length t) as LU by (unfold u; now rewrite !upd_length).
  assert (forall x y, child u y x -> child t y x \/ (x = a /\ y = b)) as HE.
  { intros x y HX. apply child_parent in HX; [|exact N3]. now apply child_right in HX. }
  split; [|cbn [withSub withTree c_tree]; fold u; intros i Hi; unfold u; rewrite !nth_error_upd_other by lia; now apply OB].
  split; cbn [withSub withTree c_tree c_sub]; rewrite ?LU.
  - fold t in HB. lia.
  - destruct (sc_sub (c_sub c)); cbn [between] in *; auto; lia.
  - rewrite EA. cbn [between]. lia.
  - intros i j Hi HJ. destruct (HE _ _ HJ) as [HJ'|[-> ->]]; [eauto|lia].
  - intros i Hi. apply (acc_mono t u (fun j => j = b)); [|intros x y HX; destruct (HE _ _ HX) as [K|[_ K]]; auto|now apply OA].
    assert (forall z, Acc (child t) z -> length (c_tree c) <= z -> Acc (child u) z) as HZ.
    { intros z A. induction A as [x _ IH]. intros Hx. constructor. intros y HY. destruct (HE _ _ HY) as [HY'|[K _]]; [|exfalso; lia]. apply IH; [exact HY'|]. now destruct (HC _ _ Hx HY'). }
    intros j ->. apply HZ; [apply HA|]; lia.
Qed.

Section Parse.
  Variable o : oracles.
  Definition done (e : serr) : Prop := e = SNil \/ e = SOneDone.
  Lemma grown_same : forall base c c', grown base c -> c_tree c' = c_tree c -> sc_sub (c_sub c') = sc_sub (c_sub c) -> sc_op (c_sub c') = sc_op (c_sub c) -> grown base c'.
  Proof. intros base c c' [] E1 E2 E3. split; rewrite ?E1, ?E2, ?E3; auto. Qed.
  Lemma below_refl : forall base t, below base t t.
  Proof. intros base t i Hi. reflexivity. Qed.
  Lemma finish_done : forall c e c' e', finish c e = Ok (c', e') -> c' = c.
  Proof. intros c e c' e' H. unfold finish in H. injection H as <- _. reflexivity. Qed.
  Lemma parse_noMore : forall f c c' e, parse o f c = Ok (c', e) -> e <> SNoMore.
  Proof.
    assert (forall c e c' e', finish c e = Ok (c', e') -> e' <> SNoMore) as HF.
    { intros c e c' e' H. unfold finish in H. destruct e; try (injection H as _ <-; discriminate). destruct (c_depth c =? 0); injection H as _ <-; discriminate. }
    induction f as [|f IH]; intros c c' e H; [discriminate|]. apply parse_inv in H as [c1 [t [ty [e1 [_ H]]]]].
    assert (forall c3, nextR o f c3 c' e -> e <> SNoMore) as HN by (intros c3 [c5 [e5 [_ [[_ X]|[_ X]]]]]; eauto).
    destruct H as [[_ H]|[_ [c2 [e2 [_ H]]]]]; [eauto|]. destruct H as [[_ H]|[[_ [c3 [_ H]]]|[_ [b [c3 [e3 [_ H]]]]]]]; [eauto|eauto|].
    destruct H as [[_ [_ H]]|[_ [c4 [e4 [_ [[_ H]|[_ H]]]]]]]; eauto.
  Qed.
  Lemma merge_error : forall c old c' e, merge c old = Ok (c', e) -> e = SNil \/ e = SOther.
  Proof.
    intros c old c' e H. unfold merge in H. destruct (isUnused old); [injection H as _ <-; auto|]. destruct (_ && _); [injection H as _ <-; auto|].
    destruct (sc_op old) as [a|]; [|discriminate]. destruct (sc_op (c_sub c)) as [b|]; [|discriminate]. destruct (_ || _); [injection H as _ <-; auto|].
    destruct (idx (c_tree c) a) as [na| | |]; cbn [obind] in H; try discriminate. destruct (pn_right na); [injection H as _ <-; auto|].
    destruct (setNode (c_tree c) a _) as [t1| | |]; cbn [obind] in H; try discriminate. destruct (idx t1 b) as [nb| | |]; cbn [obind] in H; try discriminate.
    destruct (pn_parent nb); [injection H as _ <-; auto|]. destruct (setNode t1 b _) as [t2| | |]; cbn [obind] in H; try discriminate.
    destruct (idx t2 a) as [n2| | |]; cbn [obind] in H; try discriminate. injection H as _ <-. auto.
  Qed.
  Lemma parse_grown : forall f c c' e base, parse o f c = Ok (c', e) -> done e -> grown base c -> grown base c' /\ below base (c_tree c) (c_tree c').
  Proof.
    induction f as [|f IH]; intros c c' e base H HD G; [discriminate|]. apply parse_inv in H as [c1 [t [ty [e1 [HG H]]]]].
    apply getToken_keeps in HG as [[S1 S2 S3 _ _] _].
    assert (grown base c1) as G1 by (eapply grown_same; eauto). rewrite <- S1. clear G S1 S2 S3.
    assert (forall c3, nextR o f c3 c' e -> grown base c3 -> grown base c' /\ below base (c_tree c3) (c_tree c')) as HNext.
    { intros c3 [c5 [e5 [HA X]]] G3. apply advance_keeps in HA as [_ [_ [A3 [A4 [A5 _]]]]]. assert (grown base c5) as G5 by (eapply grown_same; eauto). rewrite <- A3.
      destruct X as [[_ X]|[_ X]]; [eapply IH; eauto|]. apply finish_done in X as ->. split; [exact G5|apply below_refl]. }
    destruct H as [[_ H]|[_ [c2 [e2 [HC H]]]]]; [apply finish_done in H as ->; split; [exact G1|apply below_refl]|].
    assert (grown base c2 /\ c_tree c2 = c_tree c1) as [G2 ET] by (apply checkType_keeps in HC as [-> | ->]; split; auto; destruct G1; split; auto). rewrite <- ET. clear G1 ET.
    destruct H as [[_ H]|[[_ [c3 [HI H]]]|[_ [b [c3 [e3 [HP H]]]]]]].
    - apply finish_done in H as ->. split; [exact G2|apply below_refl].
    - destruct (insertNode_grown base _ _ _ _ HI G2) as [G3 B3]. destruct (HNext _ H G3) as [G4 B4]. split; [exact G4|eapply below_trans; eauto].
    - destruct H as [[N1 [N2 H]]|[HE [c4 [e4 [HM H]]]]].
      + exfalso. assert (e3 <> SNoMore) as N3 by (eapply parse_noMore; exact HP). unfold finish in H. destruct e3; try congruence; injection H as _ <-; destruct HD; discriminate.
      + assert (grown (length (c_tree c2)) (withSub c2 (newSub b))) as GN.
        { split; cbn [withSub c_tree c_sub newSub sc_sub sc_op between]; auto; [intros i j Hi HJ; apply child_range in HJ; lia|intros i Hi; now apply acc_out]. }
        destruct (IH _ _ _ _ HP HE GN) as [G3 B3]. cbn [withSub c_tree] in B3.
        destruct H as [[N4 H]|[-> H]].
        * exfalso. apply merge_error in HM as [-> | ->]; [congruence|]. unfold finish in H. injection H as _ <-. destruct HD; discriminate.
        * destruct (merge_grown base c2 c3 c4 HM G2 G3 B3) as [G4 B4]. destruct (HNext _ H G4) as [G5 B5]. split; [exact G5|eapply below_trans; eauto].
  Qed.
End Parse.
