(** Parsing a chain of tests: the tree built and the expression read off it. *)
From Coq Require Import String.
From Verif Require Import Base MTokenizer MLit MFastVal MMath MBinTree SEvents MExpr MExprJson MText MSimple SSimple PSimpleWords PSimpleField PSimple PSimpleCall.
From Coq Require Import List NArith ZArith Arith Lia Bool.
Import ListNotations.
Open Scope nat_scope.

Lemma upd_app : forall (A : Type) (T X : list A) k x, upd (T ++ X) (length T + k) x = T ++ upd X k x.
Proof. induction T as [|a T IH]; intros X k x; [reflexivity|]. cbn [app length Nat.add upd]. now rewrite IH. Qed.
Lemma upd_at : forall (A : Type) (T X : list A) j x, length T <= j -> upd (T ++ X) j x = T ++ upd X (j - length T) x.
Proof. intros A T X j x H. rewrite <- upd_app. f_equal. lia. Qed.
Lemma nth_app : forall (A : Type) (T X : list A) k, nth_error (T ++ X) (length T + k) = nth_error X k.
Proof. intros. rewrite nth_error_app2 by lia. f_equal. lia. Qed.
Lemma nth_app0 : forall (A : Type) (T X : list A) x, nth_error (T ++ x :: X) (length T) = Some x.
Proof. intros. rewrite nth_error_app2 by lia. now rewrite Nat.sub_diag. Qed.
Lemma nth_upd : forall (A : Type) (l : list A) i j x, i < length l -> nth_error (upd l i x) j = if j =? i then Some x else nth_error l j.
Proof.
  induction l as [|a l IH]; intros i j x Hi; [cbn in Hi; lia|]. destruct i as [|i], j as [|j]; cbn [upd nth_error Nat.eqb]; auto.
  cbn [length] in Hi. now rewrite IH by lia.
Qed.
Lemma len_upd : forall (A : Type) (l : list A) i x, length (upd l i x) = length l.
Proof. induction l as [|a l IH]; intros [|i] x; cbn [upd length]; auto. Qed.

Section Chain.
  Variable o : oracles.

  (** ** Reading an expression off the tree *)
  Definition unaries : list (bytes * (expr -> expr)) :=
    [(s2b "EXISTS", XExists); (s2b "IS_MISSING", XNotExists); (s2b "IS_NULL", fun a => XCmp CEq a (XValue GNil)); (s2b "IS_NOT_NULL", fun a => XCmp CNe a (XValue GNil))].
  Definition binaries : list (bytes * (expr -> expr -> expr)) :=
    [(s2b "==", XCmp CEq); (s2b "!=", XCmp CNe); (s2b "<", XCmp CLt); (s2b "<=", XCmp CLe); (s2b ">", XCmp CGt); (s2b ">=", XCmp CGe); (s2b "=~", XCmp CLike);
     (s2b "NOT_LIKE", fun a b => XNot (XCmp CLike a b)); (s2b "||", fun a b => XOr [a; b]); (s2b "&&", fun a b => XAnd [a; b])].
  Definition leafOut (n : pnode) (e : expr) : Prop :=
    match pn_type n with
    | TkTrue => e = XValue (GBool true)
    | TkFalse => e = XValue (GBool false)
    | TkValue => outValue o (pn_data n) = Ok e
    | TkRegex => e = XRegex (pn_data n)
    | _ => False
    end.
  Definition callOf (a : sarg) : fhelper := {| h_args := levels 0 a; h_lvl := 0 |}.
  Inductive outs (T : list pnode) (ps : store) : nat -> expr -> Prop :=
  | O_field : forall i n p, nth_error T i = Some n -> pn_type n = TkField -> lookupN i (pathsIn ps) = Some p -> outs T ps i (XField 0 p)
  | O_func : forall i n a, nth_error T i = Some n -> pn_type n = TkFunc -> argOk o a -> isCall a -> lookupN i (funcsIn ps) = Some (callOf a) -> outs T ps i (argExpr a)
  | O_leaf : forall i n e, nth_error T i = Some n -> leafOut n e -> outs T ps i e
  | O_one : forall i n l a k, nth_error T i = Some n -> pn_type n = TkOp -> pn_left n = Some l -> In (pn_data n, k) unaries -> outs T ps l a -> outs T ps i (k a)
  | O_two : forall i n l r a b k, nth_error T i = Some n -> pn_type n = TkOp -> pn_left n = Some l -> pn_right n = Some r -> In (pn_data n, k) binaries ->
      outs T ps l a -> outs T ps r b -> outs T ps i (k a b).
  Lemma outs_outNode : forall c ps i e, c_paths c = pathsIn ps -> c_funcs c = funcsIn ps -> outs (c_tree c) ps i e -> exists m, forall f, m <= f -> outNode o f c i = Ok e.
  Proof.
    intros c ps i e EP EF H. induction H as [i n p HN HT HP|i n a HN HT HO HI HP|i n e HN HL|i n l a k HN HT HL HK _ [m IH]|i n l r a b k HN HT HL HR HK _ [m IH] _ [m2 IH2]].
    - exists 1. intros [|f] Hf; [lia|]. cbn [outNode]. now rewrite HN, HT, EP, HP.
    - exists (S (depth a)). intros [|f] Hf; [lia|]. cbn [outNode]. rewrite HN, HT, EF, HP. pose proof (outFunc_call o a HO HI [] [] 0 f ltac:(lia)) as E. cbn [app length] in E. rewrite app_nil_r in E. exact E.
    - exists 1. intros [|f] Hf; [lia|]. cbn [outNode]. rewrite HN. unfold leafOut in HL. destruct (pn_type n); try contradiction; subst; auto.
    - exists (S m). intros [|f] Hf; [lia|]. cbn [outNode]. rewrite HN, HT, HL. cbn [unaries In] in HK.
      destruct HK as [E|[E|[E|[E|[]]]]]; injection E as E1 E2; rewrite <- E1, <- E2; cbn; rewrite IH by lia; reflexivity.
    - exists (S (m + m2)). intros [|f] Hf; [lia|]. cbn [outNode]. rewrite HN, HT, HL, HR. cbn [binaries In] in HK.
      repeat (destruct HK as [E|HK]; [injection E as E1 E2; rewrite <- E1, <- E2; cbn; rewrite IH, IH2 by lia; reflexivity|]). destruct HK.
  Qed.
  Definition keepsN (n n' : pnode) : Prop :=
    pn_type n' = pn_type n /\ pn_data n' = pn_data n /\ pn_left n' = pn_left n /\ (forall x, pn_right n = Some x -> pn_right n' = Some x).
  Definition keeps (T : list pnode) (ps : store) (T2 : list pnode) (ps2 : store) : Prop :=
    forall i n, nth_error T i = Some n -> (exists n', nth_error T2 i = Some n' /\ keepsN n n') /\ lookupN i (pathsIn ps2) = lookupN i (pathsIn ps) /\ lookupN i (funcsIn ps2) = lookupN i (funcsIn ps).
  Lemma keeps_outs : forall T ps T2 ps2 i e, keeps T ps T2 ps2 -> outs T ps i e -> outs T2 ps2 i e.
  Proof.
    intros T ps T2 ps2 i e K H. induction H as [i n p HN HT HP|i n a HN HT HA HI HP|i n e HN HL|i n l a k HN HT HL HK _ IH|i n l r a b k HN HT HL HR HK _ IH _ IH2];
      destruct (K _ _ HN) as ((n' & HN' & E1 & E2 & E3 & E4) & EP & EG).
    - eapply O_field; eauto; congruence.
    - eapply O_func; eauto; congruence.
    - eapply O_leaf; eauto. unfold leafOut in *. now rewrite E1, E2.
    - eapply O_one; eauto; try congruence.
    - eapply O_two; eauto; try congruence.
  Qed.
  Lemma keepsN_refl : forall n, keepsN n n.
  Proof. intros n. repeat split; auto. Qed.
  Lemma keeps_trans : forall T ps T2 ps2 T3 ps3, keeps T ps T2 ps2 -> keeps T2 ps2 T3 ps3 -> keeps T ps T3 ps3.
  Proof.
    intros T ps T2 ps2 T3 ps3 K1 K2 i n HN. destruct (K1 _ _ HN) as ((n' & HN' & E1 & E2 & E3 & E4) & EP & EG).
    destruct (K2 _ _ HN') as ((n2 & HN2 & F1 & F2 & F3 & F4) & FP & FG). split; [|split; congruence]. exists n2. split; auto. repeat split; try congruence. auto.
  Qed.
  Lemma keeps_app : forall T ps X qs, Forall (fun q => length T <= fst q) qs -> keeps T ps (T ++ X) (qs ++ ps).
  Proof.
    intros T ps X qs HQ i n HN. assert (i < length T) as Hi by (apply nth_error_Some; congruence). split.
    - exists n. split; [now rewrite nth_error_app1|apply keepsN_refl].
    - unfold lookupN. induction HQ as [|[j [p g]] qs Hj HQ [IH IH2]]; [split; reflexivity|]. cbn [app pathsIn funcsIn flat_map fst snd] in *.
      fold (pathsIn (qs ++ ps)). fold (funcsIn (qs ++ ps)). assert (j =? i = false) as EJ by (apply Nat.eqb_neq; lia).
      split; [destruct p|destruct g]; cbn [app find fst]; rewrite ?EJ; auto.
  Qed.
  Lemma keeps_upd : forall T ps i f n, nth_error T i = Some n -> keepsN n (f n) -> keeps T ps (upd T i (f n)) ps.
  Proof.
    intros T ps i f n HN HK j m HM. split; auto. assert (i < length T) as Hi by (apply nth_error_Some; congruence). rewrite nth_upd by auto.
    destruct (j =? i) eqn:E; [apply Nat.eqb_eq in E; subst; exists (f n); split; congruence|exists m; split; auto; apply keepsN_refl].
  Qed.

  (** ** One test *)
  Definition testOp (t : stest) : bytes :=
    match t with
    | TCmp op _ | TCall op _ => normalOp (copText op)
    | TLike PNotLike _ _ => s2b "NOT_LIKE"
    | TLike _ _ _ => s2b "=~"
    | TExists => s2b "EXISTS" | TMissing => s2b "IS_MISSING" | TNull => s2b "IS_NULL" | TNotNull => s2b "IS_NOT_NULL"
    end.
  Definition testX (t : stest) : opctx :=
    match t with
    | TCmp (PEq | PEq1 | PNe) _ | TCall (PEq | PEq1 | PNe) _ => NoOp
    | TCmp _ _ | TCall _ _ => CompareOp
    | TLike _ _ _ => MatchOp
    | _ => NoFieldOp
    end.
  Definition opWords (t : stest) : list bytes :=
    match t with
    | TCmp op _ | TCall op _ => [copText op]
    | TLike PNotLike _ _ => [s2b "NOT"; s2b "LIKE"]
    | TLike l _ _ => [likeText l]
    | TExists => [s2b "EXISTS"] | TMissing => [s2b "IS"; s2b "MISSING"] | TNull => [s2b "IS"; s2b "NULL"] | TNotNull => [s2b "IS"; s2b "NOT"; s2b "NULL"]
    end.
  Definition argWords (t : stest) : list bytes :=
    match t with TCmp _ v => valWords v | TCall _ c => [argText c] | TLike _ dbl re => [[quote dbl] ++ re ++ [quote dbl]] | _ => [] end.
  Lemma testWords_split : forall t, testWords t = opWords t ++ argWords t.
  Proof. intros [op v|op c|[] d re| | | |]; reflexivity. Qed.
  Lemma read_test : forall t toks cur more lf sh T h ps one i fi, at_word toks cur (opWords t ++ more) ->
    reads o (mk toks cur lf (sb MdOp NoOp false (Some i) fi None None one) sh T h ps)
      (mk toks (cur + (length (opWords t) - 1)) lf (sb MdOp (testX t) false (Some i) fi None None one) sh T h ps, testOp t, TkOp, SNil).
  Proof.
    intros t toks cur more lf sh T h ps one i fi HA. set (s := sb MdOp NoOp false (Some i) fi None None one).
    assert (forall w, isOp w = true -> opWords t = [w] -> markOp (mk toks cur lf s sh T h ps) (normalOp w) = mk toks cur lf (sb MdOp (testX t) false (Some i) fi None None one) sh T h ps ->
      testOp t = normalOp w -> reads o (mk toks cur lf s sh T h ps)
      (mk toks (cur + (length (opWords t) - 1)) lf (sb MdOp (testX t) false (Some i) fi None None one) sh T h ps, testOp t, TkOp, SNil)) as X1.
    { intros w HW E1 E2 E3. rewrite E1 in *. cbn [app length Nat.sub] in *. rewrite Nat.add_0_r, E3, <- E2. apply (read_op o w toks cur more); auto. }
    assert (In (opWords t, testOp t) multiWords -> forall cur', markOp (mk toks cur' lf s sh T h ps) (testOp t) = mk toks cur' lf (sb MdOp (testX t) false (Some i) fi None None one) sh T h ps ->
      cur' = cur + (length (opWords t) - 1) -> reads o (mk toks cur lf s sh T h ps)
      (mk toks (cur + (length (opWords t) - 1)) lf (sb MdOp (testX t) false (Some i) fi None None one) sh T h ps, testOp t, TkOp, SNil)) as X2.
    { intros HI cur' E -> . rewrite <- E. eapply read_multi; eauto. }
    destruct t as [[] v|[] c|[] d re| | | |];
      try solve [eapply X1; [|reflexivity|reflexivity|reflexivity]; reflexivity]; (eapply X2; [cbn; tauto|reflexivity|reflexivity]).
  Qed.

  Definition argNode (t : stest) (n : pnode) : Prop :=
    match t with TCmp _ v => leafOut n (XValue (valGo v)) | TCall _ _ => pn_type n = TkFunc | TLike _ _ re => leafOut n (XRegex re) | _ => False end.
  Definition argFunc (t : stest) : option fhelper := match t with TCall _ c => Some (callOf c) | _ => None end.
  Definition subjType (a : sarg) : ttype := match a with ALeaf _ => TkField | _ => TkFunc end.
  Definition subjData (a : sarg) : bytes := match a with ALeaf _ => [] | _ => argText a end.
  Definition subjFunc (a : sarg) : option fhelper := match a with ALeaf _ => None | _ => Some (callOf a) end.
  Definition subjField (lf : list bytes) (a : sarg) : list bytes := match a with ALeaf (LPath p) => pathOf p | _ => lf end.
  Definition subjNode (a : sarg) (p : option nat) : pnode := nd (subjType a) (subjData a) p None None.
  Definition subjIn (i : nat) (lf : list bytes) (a : sarg) : store := [(i, (Some (subjField lf a), subjFunc a))].
  Definition argIn (i : nat) (g : option fhelper) : store := match g with Some h => [(i, (None, Some h))] | None => [] end.
  Lemma read_subj : forall a toks cur ws lf s sh T h ps, subjOk o a -> at_word toks cur (argText a :: ws) -> sc_mode s = MdField -> sFunc s None = s ->
    reads o (mk toks cur lf s sh T h ps) (mk toks cur (subjField lf a) (sFunc s (subjFunc a)) sh T h ps, subjData a, subjType a, SNil).
  Proof.
    intros [[p|v]|n f r] toks cur ws lf s sh T h ps HO HA HM HS; [|destruct HO|].
    - cbn [subjField subjFunc subjData subjType]. rewrite HS. eapply read_path; eauto.
    - eapply read_call; eauto. exact I.
  Qed.
  Definition rootAt (T : list pnode) (r : nat) : Prop := exists n, nth_error T r = Some n /\ pn_parent n = None /\ pn_type n = TkOp.
  (** A state after a whole test whose first node is at [length T]. *)
  Definition after (a : satom) (T Y : list pnode) (ps qs : store) (r : nat) : Prop :=
    r = length T + 1 /\ Forall (fun q => length T <= fst q) qs /\ outs (T ++ Y) (qs ++ ps) r (atomExpr a)
    /\ rootAt (T ++ Y) r.
  Lemma read_arg : forall t toks cur more lf sh T h ps su fi op one, testOk o t -> match t with TCmp _ _ | TCall _ _ | TLike _ _ _ => true | _ => false end = true ->
    at_word toks cur (argWords t ++ more) ->
    exists d ty tf, reads o (mk toks cur lf (sb MdValue (testX t) false su fi op None one) sh T h ps)
      (mk toks (cur + (length (argWords t) - 1)) lf (sFunc (sb MdValue (testX t) tf su fi op None one) (argFunc t)) sh T h ps, d, ty, SNil)
      /\ (forall p, argNode t (nd ty d p None None)) /\ (forall c, c_sub c = sFunc (sb MdValue (testX t) tf su fi op None one) (argFunc t) -> checkType c ty = (c, SNil)).
  Proof.
    intros t toks cur more lf sh T h ps su fi op one HT HB HA. destruct t as [k v|k c|l d re| | | |]; try discriminate HB.
    - destruct HT as [HV HK]. cbn [argWords] in *. set (s := sb MdValue (testX (TCmp k v)) false su fi op None one).
      destruct (read_val o v toks cur more lf s sh T h ps HV HA eq_refl) as (d & ty & HR & Hty & HO); [destruct k; discriminate|].
      exists d, ty, (match v with SBool _ => true | _ => false end). split; [|split].
      + destruct v; exact HR.
      + intros p. cbn [argNode]. unfold leafOut. cbn [nd pn_type pn_data]. subst ty. destruct v as [| | |[]]; auto.
      + intros c E. unfold checkType. rewrite E. subst ty. cbn [sb sc_mode sc_opctx testX]. destruct v as [| | |[]]; destruct k; cbn; auto; destruct HK as [X|[X|X]]; discriminate X.
    - destruct HT as [HV HK]. cbn [argWords length Nat.sub] in *. rewrite Nat.add_0_r. exists (argText c), TkFunc, false. split; [|split].
      + eapply read_call; eauto.
      + reflexivity.
      + intros c0 E. unfold checkType. rewrite E. destruct k; reflexivity.
    - destruct HT as (HS & HW & HC). cbn [argWords length Nat.sub] in *. rewrite Nat.add_0_r. exists re, TkRegex, false. split; [|split].
      + eapply (read_quoted o d re toks cur more); auto.
      + reflexivity.
      + intros c E. unfold checkType. rewrite E. reflexivity.
  Qed.
  Definition headOr (h : option nat) (r : nat) : option nat := match h with None => Some r | _ => h end.
  Lemma setNode_app : forall T X k j f n, j = length T + k -> nth_error X k = Some n -> setNode (T ++ X) j f = Ok (T ++ upd X k (f n)).
  Proof. intros T X k j f n -> H. unfold setNode. rewrite nth_app, H. now rewrite upd_app. Qed.
  Lemma ins_op : forall su toks cur lf x one sh T h ps d, let i := length T in
    insertNode (mk toks cur lf (sb MdOp x false (Some i) (Some i) None None one) sh (T ++ [subjNode su None]) h ps) TkOp d
    = Ok (mk toks cur lf (sb MdOp x false (Some (i + 1)) (Some i) (Some (i + 1)) None one) sh
            (T ++ [subjNode su (Some (i + 1)); nd TkOp d None (Some i) None]) (headOr h (i + 1)) ps).
  Proof.
    intros. unfold insertNode. cbn [mk c_sub sb sc_mode c_tree sc_sub]. rewrite app_length. cbn [length]. rewrite <- app_assoc. cbn [app]. fold i.
    rewrite (setNode_app T _ 1 _ _ (nd TkOp d None None None)) by (reflexivity || (unfold i; lia)). cbn [obind setNodeAt].
    rewrite (setNode_app T _ 0 _ _ (subjNode su None)) by (reflexivity || (unfold i; lia)). cbn [obind].
    destruct h; reflexivity.
  Qed.
  Lemma ins_val : forall su g toks cur lf x tf one sh T h ps d0 ty d, let i := length T in
    insertNode (mk toks cur lf (sFunc (sb MdValue x tf (Some (i + 1)) (Some i) (Some (i + 1)) None one) g) sh (T ++ [subjNode su (Some (i + 1)); nd TkOp d0 None (Some i) None]) h ps) ty d
    = Ok (mk toks cur lf (sFunc (sb MdValue x tf (Some (i + 1)) (Some i) (Some (i + 1)) (Some (i + 2)) one) g) sh
            (T ++ [subjNode su (Some (i + 1)); nd TkOp d0 None (Some i) (Some (i + 2)); nd ty d (Some (i + 1)) None None]) h (argIn (i + 2) g ++ ps)).
  Proof.
    intros. unfold insertNode. cbn [mk c_sub sFunc sb sc_mode c_tree sc_op sc_func]. rewrite app_length. cbn [length]. rewrite <- app_assoc. cbn [app]. fold i.
    rewrite (setNode_app T _ 2 _ _ (nd ty d None None None)) by (reflexivity || (unfold i; lia)). cbn [obind setNodeAt].
    rewrite (setNode_app T _ 1 _ _ (nd TkOp d0 None (Some i) None)) by (reflexivity || (unfold i; lia)). cbn [obind].
    destruct g; reflexivity.
  Qed.
  Lemma outs_subj : forall su T X ps qs lf p i, subjOk o su -> i = length T -> Forall (fun q => i < fst q) qs ->
    outs (T ++ subjNode su p :: X) (qs ++ subjIn i lf su ++ ps) i (argExpr su).
  Proof.
    intros su T X ps qs lf p i HO -> HQ.
    assert (forall A (f : option (list bytes) * option fhelper -> option A) a, f (Some (subjField lf su), subjFunc su) = Some a ->
      lookupN (length T) (flat_map (fun e => match f (snd e) with Some x => [(fst e, x)] | None => [] end) (qs ++ subjIn (length T) lf su ++ ps)) = Some a) as L.
    { intros A f a E. unfold lookupN. induction HQ as [|[j e] qs Hj HQ IH].
      - cbn [app subjIn flat_map fst snd]. rewrite E. cbn [app find fst]. now rewrite Nat.eqb_refl.
      - cbn [app flat_map fst snd] in *. assert (j =? length T = false) as EJ by (apply Nat.eqb_neq; lia). destruct (f e); cbn [app find fst]; rewrite ?EJ; auto. }
    destruct su as [[q|v]|n f r]; [|destruct HO|].
    - eapply O_field; [apply nth_app0|reflexivity|]. apply (L _ fst). reflexivity.
    - eapply O_func; [apply nth_app0|reflexivity|exact HO|exact I|]. apply (L _ snd). reflexivity.
  Qed.
  Lemma after_bin : forall a T ps lf d ty, atomOk o a -> argNode (a_test a) (nd ty d (Some (length T + 1)) None None) ->
    after a T [subjNode (a_subj a) (Some (length T + 1)); nd TkOp (testOp (a_test a)) None (Some (length T)) (Some (length T + 2)); nd ty d (Some (length T + 1)) None None]
      ps (argIn (length T + 2) (argFunc (a_test a)) ++ subjIn (length T) lf (a_subj a)) (length T + 1).
  Proof.
    intros a T ps lf d ty [HS HT] HA. split; [reflexivity|]. split; [|split; [|eexists; split; [rewrite nth_app; reflexivity|split; reflexivity]]].
    { apply Forall_app. split; [destruct (argFunc (a_test a)); constructor; cbn; try lia; constructor|constructor; [cbn; lia|constructor]]. }
    rewrite <- app_assoc.
    set (TT := T ++ [subjNode (a_subj a) (Some (length T + 1)); nd TkOp (testOp (a_test a)) None (Some (length T)) (Some (length T + 2)); nd ty d (Some (length T + 1)) None None]).
    set (qq := argIn (length T + 2) (argFunc (a_test a)) ++ subjIn (length T) lf (a_subj a) ++ ps).
    assert (forall k b, In (testOp (a_test a), k) binaries -> outs TT qq (length T + 2) b -> outs TT qq (length T + 1) (k (argExpr (a_subj a)) b)) as X.
    { intros k b HK HB. eapply O_two; [unfold TT; rewrite nth_app; reflexivity|reflexivity|reflexivity|reflexivity|exact HK| |exact HB].
      apply outs_subj; auto. destruct (argFunc (a_test a)); constructor; cbn; try lia; constructor. }
    assert (forall b, leafOut (nd ty d (Some (length T + 1)) None None) b -> outs TT qq (length T + 2) b) as Z.
    { intros b HB. eapply O_leaf; [unfold TT; rewrite nth_app; reflexivity|exact HB]. }
    unfold atomExpr. destruct (a_test a) as [op v|op c|l q re| | | |]; try contradiction.
    - apply X; auto. destruct op; cbn; auto 10.
    - apply X; [destruct op; cbn; auto 10|]. destruct HT as [HC HI]. eapply O_func; [unfold TT; rewrite nth_app; reflexivity|exact HA|exact HC|exact HI|].
      unfold qq. cbn [argFunc argIn app]. unfold lookupN. cbn [funcsIn flat_map fst snd app find]. now rewrite Nat.eqb_refl.
    - destruct l; [apply X; auto; cbn; auto 10|apply X; auto; cbn; auto 10|].
      apply (X (fun x y => XNot (XCmp CLike x y))); auto. cbn. auto 10.
  Qed.
  Lemma after_un : forall a T ps lf, atomOk o a -> binaryb a = false ->
    after a T [subjNode (a_subj a) (Some (length T + 1)); nd TkOp (testOp (a_test a)) None (Some (length T)) None] ps (subjIn (length T) lf (a_subj a)) (length T + 1).
  Proof.
    intros a T ps lf [HS HT] HB. split; [reflexivity|]. split; [constructor; [cbn; lia|constructor]|].
    split; [|eexists; split; [rewrite nth_app; reflexivity|split; reflexivity]].
    assert (forall k, In (testOp (a_test a), k) unaries ->
      outs (T ++ [subjNode (a_subj a) (Some (length T + 1)); nd TkOp (testOp (a_test a)) None (Some (length T)) None])
       (subjIn (length T) lf (a_subj a) ++ ps) (length T + 1) (k (argExpr (a_subj a)))) as X.
    { intros k HK. eapply O_one; [rewrite nth_app; reflexivity|reflexivity|reflexivity|exact HK|].
      apply (outs_subj (a_subj a) T _ ps []); auto. }
    unfold atomExpr, binaryb in *. destruct (a_test a) as [op v|op c|l q re| | | |]; try discriminate HB.
    - apply (X XExists). cbn; auto.
    - apply (X XNotExists). cbn; auto.
    - apply (X (fun x => XCmp CEq x (XValue GNil))). cbn; auto.
    - apply (X (fun x => XCmp CNe x (XValue GNil))). cbn; auto.
  Qed.
  Lemma advance_one : forall g toks cur lf x tf a b c d sh T h ps, advance (mk toks cur lf (sFunc (sb MdValue x tf a b c d true) g) sh T h ps) = (mk toks cur lf (sb MdValue x tf a b c d true) sh T h ps, SOneDone).
  Proof. intros. unfold advance. cbn. now rewrite Nat.sub_0_r. Qed.
  Lemma advance_val : forall g toks cur lf x tf a b c d sh T h ps, advance (mk toks cur lf (sFunc (sb MdValue x tf a b c d false) g) sh T h ps) = (mk toks (S cur) lf (sb MdChain NoOp tf a b c d false) sh T h ps, SNil).
  Proof. reflexivity. Qed.
  Lemma type_subj : forall su g toks cur lf one sh T h ps, checkType (mk toks cur lf (sFunc (newSub one) g) sh T h ps) (subjType su) = (mk toks cur lf (sFunc (newSub one) g) sh T h ps, SNil).
  Proof. intros []; reflexivity. Qed.
  Lemma ins_subj : forall su toks cur lf one sh T h ps,
    insertNode (mk toks cur (subjField lf su) (sFunc (newSub one) (subjFunc su)) sh T h ps) (subjType su) (subjData su)
    = Ok (mk toks cur (subjField lf su) (sFunc (sb MdField NoOp false (Some (length T)) (Some (length T)) None None one) (subjFunc su)) sh (T ++ [subjNode su None]) h (subjIn (length T) lf su ++ ps)).
  Proof. intros [[]|]; reflexivity. Qed.
  Lemma atom_go : forall a one toks cur more lf sh T h ps, atomOk o a -> at_word toks cur (atomWords a ++ more) ->
    exists Y qs lf2 r, after a T Y ps qs r
      /\ (if one && binaryb a
          then exists s2, sc_op s2 = Some r /\ sc_one s2 = true /\ parses o (mk toks cur lf (newSub one) sh T h ps) (mk toks (cur + (length (atomWords a) - 1)) lf2 s2 sh (T ++ Y) (headOr h r) (qs ++ ps), SOneDone)
          else exists x tf va, forall R, parses o (mk toks (cur + length (atomWords a)) lf2 (sb MdChain x tf (Some r) (Some (length T)) (Some r) va one) sh (T ++ Y) (headOr h r) (qs ++ ps)) R ->
             parses o (mk toks cur lf (newSub one) sh T h ps) R).
  Proof.
    intros a one toks cur more lf sh T h ps HAO HA. pose proof HAO as [HP HT]. unfold atomWords in HA. rewrite testWords_split in HA. cbn [app] in HA.
    set (lf1 := subjField lf (a_subj a)). set (su := a_subj a) in *. set (ps1 := subjIn (length T) lf su ++ ps).
    assert (forall R, parses o (mk toks (S cur) lf1 (sb MdOp NoOp false (Some (length T)) (Some (length T)) None None one) sh (T ++ [subjNode su None]) h ps1) R ->
      parses o (mk toks cur lf (newSub one) sh T h ps) R) as S1.
    { intros R HR. eapply parses_insert; [apply (read_subj su _ _ _ _ _ _ _ _ _ HP HA); reflexivity| | | |exact HR]; [apply type_subj|apply ins_subj|reflexivity]. }
    pose proof HA as HA2. apply at_next in HA2. rewrite <- app_assoc in HA2.
    assert (forall c3 R e, advance (mk toks (S cur + (length (opWords (a_test a)) - 1)) lf1
        (sb MdOp (testX (a_test a)) false (Some (length T + 1)) (Some (length T)) (Some (length T + 1)) None one) sh
            (T ++ [subjNode su (Some (length T + 1)); nd TkOp (testOp (a_test a)) None (Some (length T)) None]) (headOr h (length T + 1)) ps1) = (c3, e) ->
      e = SNil -> parses o c3 R -> parses o (mk toks cur lf (newSub one) sh T h ps) R) as S2.
    { intros c3 R e HV -> HR. apply S1. eapply parses_insert; [apply (read_test _ _ _ _ _ _ _ _ _ _ _ _ HA2)|reflexivity|apply ins_op|exact HV|exact HR]. }
    assert (length (opWords (a_test a)) >= 1) as HL by (destruct (a_test a) as [| |[]| | | |]; cbn; lia).
    pose proof HA2 as HA3. apply at_tail in HA3.
    assert (S cur + (length (opWords (a_test a)) - 1) = cur + length (opWords (a_test a))) as EC by lia. rewrite EC in S2.
    assert (length (atomWords a) = S (length (opWords (a_test a)) + length (argWords (a_test a)))) as EW by (unfold atomWords; rewrite testWords_split; cbn [length]; now rewrite app_length).
    destruct (binaryb a) eqn:EB.
    - assert (length (argWords (a_test a)) >= 1) as HL2.
      { unfold binaryb in EB. destruct (a_test a) as [k [| | |]| |[]| | | |]; cbn; try lia; try discriminate. unfold strWords. destruct ws; cbn; [lia|]. destruct (rev ws); cbn; lia. }
      destruct (read_arg (a_test a) toks (S cur + length (opWords (a_test a))) more lf1 sh
         (T ++ [subjNode su (Some (length T + 1)); nd TkOp (testOp (a_test a)) None (Some (length T)) None]) (headOr h (length T + 1)) ps1
         (Some (length T + 1)) (Some (length T)) (Some (length T + 1)) one HT EB HA3) as (d & ty & tf & HR & HN & HC).
      exists [subjNode su (Some (length T + 1)); nd TkOp (testOp (a_test a)) None (Some (length T)) (Some (length T + 2)); nd ty d (Some (length T + 1)) None None],
        (argIn (length T + 2) (argFunc (a_test a)) ++ subjIn (length T) lf su), lf1, (length T + 1). split; [now apply after_bin|].
      rewrite <- app_assoc. fold ps1.
      assert (forall R, parses o (mk toks (S cur + length (opWords (a_test a))) lf1 (sb MdValue (testX (a_test a)) false (Some (length T + 1)) (Some (length T)) (Some (length T + 1)) None one) sh
         (T ++ [subjNode su (Some (length T + 1)); nd TkOp (testOp (a_test a)) None (Some (length T)) None]) (headOr h (length T + 1)) ps1) R ->
         parses o (mk toks cur lf (newSub one) sh T h ps) R) as S3.
      { intros R HR2. eapply S2; [|reflexivity|exact HR2]. unfold binaryb in EB. destruct (a_test a) as [[]|[]|[]| | | |]; try discriminate EB; reflexivity. }
      destruct one; cbn [andb].
      + exists (sb MdValue (testX (a_test a)) tf (Some (length T + 1)) (Some (length T)) (Some (length T + 1)) (Some (length T + 2)) true). split; [|split; [|apply S3; eapply parses_one; [exact HR|apply HC; reflexivity|apply ins_val|]]]; [reflexivity|reflexivity|].
        rewrite advance_one, EW.
        match goal with |- (mk _ ?x _ _ _ _ _ _, _) = (mk _ ?y _ _ _ _ _ _, _) => replace x with y by lia end. reflexivity.
      + exists NoOp, tf, (Some (length T + 2)). intros R HR2. apply S3. eapply parses_insert; [exact HR|apply HC; reflexivity|apply ins_val|apply advance_val|].
        rewrite EW in HR2. match goal with H : parses o (mk _ ?x _ _ _ _ _ _) R |- parses o (mk _ ?y _ _ _ _ _ _) R => replace y with x by lia end. exact HR2.
    - exists [subjNode su (Some (length T + 1)); nd TkOp (testOp (a_test a)) None (Some (length T)) None],
        (subjIn (length T) lf su), lf1, (length T + 1). split; [now apply after_un|]. rewrite andb_false_r.
      exists (testX (a_test a)), false, None. intros R HR. eapply S2; [|reflexivity|exact HR]. rewrite EW.
      assert (argWords (a_test a) = []) as -> by (unfold binaryb in EB; destruct (a_test a) as [[]|[]|[]| | | |]; try discriminate EB; reflexivity).
      cbn [length]. replace (cur + S (length (opWords (a_test a)) + 0)) with (S (cur + length (opWords (a_test a)))) by lia. unfold binaryb in EB. destruct (a_test a) as [[]|[]|[]| | | |]; try discriminate EB; reflexivity.
  Qed.

  (** ** Joining *)
  Definition joinOp (j : sjoin) : bytes := s2b (if isAnd j then "&&" else "||").
  Lemma merge_ok : forall toks cur lf s3 sh T h ps a b na nb old, sc_op old = Some a -> sc_op s3 = Some b -> isUnused old = false -> sc_bool old = false -> a <> b ->
    nth_error T a = Some na -> pn_right na = None -> pn_parent na = None -> nth_error T b = Some nb -> pn_parent nb = None ->
    merge (mk toks cur lf s3 sh T h ps) old
    = Ok (mk toks cur lf old sh (upd (upd T a (nRight (Some b) na)) b (nParent (Some a) nb)) (Some a) ps, SNil).
  Proof.
    intros toks cur lf s3 sh T h ps a b na nb old E1 E2 E3 E4 HN HA HR HP HB HQ. unfold merge. rewrite E3, E4, andb_false_r, E1. cbn [c_sub mk c_tree]. rewrite E2.
    assert (a < length T) as La by (apply nth_error_Some; congruence). assert (b < length T) as Lb by (apply nth_error_Some; congruence).
    assert ((length T <=? a) || (length T <=? b) = false) as -> by (apply orb_false_iff; split; apply Nat.leb_gt; auto).
    unfold idx. rewrite HA. cbn [obind]. rewrite HR. unfold setNode. rewrite HA. cbn [obind].
    rewrite nth_upd by auto. assert (b =? a = false) as EB by (apply Nat.eqb_neq; auto). rewrite EB, HB. cbn [obind]. rewrite HQ. cbn [obind].
    rewrite nth_upd by now rewrite len_upd. assert (a =? b = false) as -> by (apply Nat.eqb_neq; auto). rewrite nth_upd by auto. rewrite Nat.eqb_refl. cbn [obind nRight pn_parent]. rewrite HP. reflexivity.
  Qed.
  Lemma ins_chain : forall m toks cur lf x tf r fi va one sh T h ps d nr, m = MdChain \/ m = MdOp -> nth_error T r = Some nr -> let i := length T in
    insertNode (mk toks cur lf (sb m x tf (Some r) fi (Some r) va one) sh T h ps) TkOp d
    = Ok (mk toks cur lf (sb m x tf (Some i) fi (Some i) va one) sh (upd T r (nParent (Some i) nr) ++ [nd TkOp d None (Some r) None]) (headOr h i) ps).
  Proof.
    intros m toks cur lf x tf r fi va one sh T h ps d nr Hm HN i. assert (r < length T) as Lr by (apply nth_error_Some; congruence).
    assert (forall (A : Type) (l : list A) k a b, k < length l -> upd (l ++ [b]) k a = upd l k a ++ [b]) as UL.
    { clear. induction l as [|y l IH]; intros [|k] a b Hk; cbn [length] in Hk; try lia; cbn [app upd]; auto. now rewrite IH by lia. }
    assert (insertNode (mk toks cur lf (sb m x tf (Some r) fi (Some r) va one) sh T h ps) TkOp d =
      (do t <- setNode (T ++ [nd TkOp d None None None]) i (nLeft (Some r)); do t <- setNode t r (nParent (Some i));
       Ok (mk toks cur lf (sb m x tf (Some i) fi (Some i) va one) sh t (headOr h i) ps))) as ->.
    { destruct Hm as [-> | ->]; unfold insertNode; cbn [mk c_sub sb sc_mode c_tree sc_sub setNodeAt]; fold i; destruct h; reflexivity. }
    rewrite (setNode_app T _ 0 _ _ (nd TkOp d None None None)) by (reflexivity || (unfold i; lia)). cbn [obind upd].
    unfold setNode. rewrite nth_error_app1 by auto. rewrite HN. cbn [obind]. now rewrite UL.
  Qed.
  Lemma skip_at : forall toks cur w ws, skipn cur toks = w :: ws -> at_word toks cur (w :: ws).
  Proof.
    intros toks cur w ws E. exists (firstn cur toks), []. rewrite app_nil_r, <- E, firstn_skipn. split; auto. rewrite firstn_length.
    assert (cur < length toks); [|lia]. destruct (Nat.lt_ge_cases cur (length toks)); auto. rewrite skipn_all2 in E by lia. discriminate.
  Qed.
  Lemma skip_skip : forall (A : Type) (l : list A) a b, skipn b (skipn a l) = skipn (a + b) l.
  Proof. intros A l a. revert l. induction a as [|a IH]; intros l b; [reflexivity|]. destruct l; [now rewrite !skipn_nil|]. cbn [skipn Nat.add]. apply IH. Qed.
  Lemma skip_end : forall (A : Type) (l : list A) k, skipn k l = [] -> nth_error l k = None.
  Proof. intros A l k H. apply nth_error_None. rewrite <- (firstn_skipn k l), H, app_nil_r, firstn_length. lia. Qed.

  Lemma chain_go : forall rest e toks cur lf m x tf r fi va one sh T0 Y h ps,
    Forall (fun p => atomOk o (snd p)) rest -> skipn cur toks = restWords rest -> m = MdChain \/ m = MdOp ->
    rootAt (T0 ++ Y) r -> length T0 <= r -> outs (T0 ++ Y) ps r e ->
    exists cur' lf' m' x' tf' r' fi' va' Y2 h' qs,
      parses o (mk toks cur lf (sb m x tf (Some r) fi (Some r) va one) sh (T0 ++ Y) h ps) (mk toks cur' lf' (sb m' x' tf' (Some r') fi' (Some r') va' one) sh (T0 ++ Y2) h' (qs ++ ps), SNil)
      /\ skipn cur' toks = [] /\ length T0 <= r' /\ rootAt (T0 ++ Y2) r' /\ outs (T0 ++ Y2) (qs ++ ps) r' (group sh e rest)
      /\ Forall (fun q => length T0 <= fst q) qs /\ (rest = [] -> h' = h /\ r' = r) /\ (rest <> [] -> h' = Some r').
  Proof.
    induction rest as [|[j b] rest IH]; intros e toks cur lf m x tf r fi va one sh T0 Y h ps HF HS Hm HR HL HO.
    - exists cur, lf, m, x, tf, r, fi, va, Y, h, []. cbn [restWords map concat] in HS. split; [apply parses_end; [cbn; now apply skip_end|reflexivity]|].
      repeat (split; auto). intros X. contradiction.
    - inversion HF as [|? ? HB HF2]; subst. cbn [snd] in HB. cbn [restWords map concat fst snd] in HS. fold (restWords rest) in HS. rewrite <- app_comm_cons in HS.
      destruct HR as (nr & HN & HP & _). assert (r < length (T0 ++ Y)) as Lr by (apply nth_error_Some; congruence).
      set (i := length (T0 ++ Y)) in *. pose proof (skip_at _ _ _ _ HS) as HA.
      set (P := upd (T0 ++ Y) r (nParent (Some i) nr)). set (T' := P ++ [nd TkOp (joinOp j) None (Some r) None]).
      assert (length P = i) as LP by (unfold P; now rewrite len_upd). assert (length T' = i + 1) as LT by (unfold T'; rewrite app_length; cbn [length]; lia).
      assert (exists P0, P = T0 ++ P0) as [P0 EP].
      { exists (upd Y (r - length T0) (nParent (Some i) nr)). unfold P. rewrite <- upd_app. f_equal. lia. }
      set (old := sb MdField ChainOp false (Some i) fi (Some i) va one).
      (* the joining word *)
      assert (forall R, parses o (mk toks (S cur) lf old sh T' (headOr h i) ps) R -> parses o (mk toks cur lf (sb m x tf (Some r) fi (Some r) va one) sh (T0 ++ Y) h ps) R) as S1.
      { intros R HR. eapply parses_insert; [eapply (read_op o (joinText j)); [destruct j; reflexivity|exact HA]| | | |exact HR].
        - assert (markOp (mk toks cur lf (sb m x tf (Some r) fi (Some r) va one) sh (T0 ++ Y) h ps) (normalOp (joinText j)) = mk toks cur lf (sb m ChainOp tf (Some r) fi (Some r) va one) sh (T0 ++ Y) h ps) as -> by (destruct j; reflexivity).
          destruct Hm as [-> | ->]; reflexivity.
        - rewrite (ins_chain m _ _ _ _ _ _ _ _ _ _ _ _ _ _ nr Hm HN). reflexivity.
        - unfold T', P, i. replace (normalOp (joinText j)) with (joinOp j) by (destruct j; reflexivity). destruct Hm as [-> | ->]; reflexivity. }
      assert (at_word toks (S cur) (atomWords b ++ restWords rest)) as HA2 by (eapply at_next; exact HA).
      set (g := subjFunc (a_subj b)). set (lf1 := subjField lf (a_subj b)).
      assert (reads o (mk toks (S cur) lf old sh T' (headOr h i) ps) (mk toks (S cur) lf1 (sFunc old g) sh T' (headOr h i) ps, subjData (a_subj b), subjType (a_subj b), SNil)) as HRd.
      { eapply read_subj; [apply HB|exact HA2|reflexivity|reflexivity]. }
      assert (skipn (S cur + length (atomWords b)) toks = restWords rest) as HS2.
      { rewrite <- skip_skip. replace (S cur) with (cur + 1) by lia. rewrite <- skip_skip, HS. cbn [skipn]. rewrite skipn_app, Nat.sub_diag, skipn_all. reflexivity. }
      assert (length (atomWords b) >= 1) as Lw by (unfold atomWords; cbn [length]; lia).
      (* what joining leaves behind *)
      assert (forall X nb bi eb qs, Forall (fun q => length T' <= fst q) qs -> nth_error (T' ++ X) bi = Some nb -> pn_parent nb = None -> length T' <= bi -> outs (T' ++ X) (qs ++ ps) bi eb ->
        let T2 := upd (upd (T' ++ X) i (nRight (Some bi) (nd TkOp (joinOp j) None (Some r) None))) bi (nParent (Some i) nb) in
        (exists Y2, T2 = T0 ++ Y2) /\ rootAt T2 i /\ outs T2 (qs ++ ps) i (joinExpr j e eb)
        /\ forall toks2 cur2 lf2 s3 h2, sc_op s3 = Some bi -> merge (mk toks2 cur2 lf2 s3 sh (T' ++ X) h2 (qs ++ ps)) (sFunc old g) = Ok (mk toks2 cur2 lf2 (sFunc old g) sh T2 (Some i) (qs ++ ps), SNil)) as MG.
      { intros X nb bi eb qs HQ HNb HPb Lb HOb T2. assert (nth_error (T' ++ X) i = Some (nd TkOp (joinOp j) None (Some r) None)) as HNi.
        { unfold T'. rewrite <- app_assoc. cbn [app]. rewrite <- LP. apply nth_app0. }
        assert (i < length (T' ++ X)) as Li by (apply nth_error_Some; congruence). assert (bi < length (T' ++ X)) as Lbi by (apply nth_error_Some; congruence).
        assert (nth_error T2 i = Some (nd TkOp (joinOp j) None (Some r) (Some bi))) as HT2.
        { unfold T2. rewrite nth_upd by now rewrite len_upd. assert (i =? bi = false) as -> by (apply Nat.eqb_neq; lia). rewrite nth_upd by auto. now rewrite Nat.eqb_refl. }
        assert (keeps (T' ++ X) (qs ++ ps) T2 (qs ++ ps)) as KT.
        { eapply keeps_trans.
          - eapply (keeps_upd _ _ i (nRight (Some bi))); [exact HNi|]. repeat split; auto. discriminate.
          - unfold T2. eapply (keeps_upd _ _ bi (nParent (Some i))); [|repeat split; auto]. rewrite nth_upd by auto. assert (bi =? i = false) as -> by (apply Nat.eqb_neq; lia). exact HNb. }
        split; [|split; [|split]].
        - unfold T2, T'. rewrite EP, <- !app_assoc. assert (length (T0 ++ P0) = i) as LP2 by now rewrite <- EP. rewrite app_length in LP2.
          rewrite !upd_at by lia. eexists; reflexivity.
        - exists (nd TkOp (joinOp j) None (Some r) (Some bi)). auto.
        - eapply (O_two T2 (qs ++ ps) i _ r bi e eb (joinExpr j)); [exact HT2|reflexivity|reflexivity|reflexivity| | |].
          + cbn [nd pn_data]. destruct j; cbn; auto 20.
          + eapply keeps_outs; [|exact HO]. eapply keeps_trans; [|eapply keeps_trans; [|exact KT]].
            * eapply (keeps_upd _ ps r (nParent (Some i))); [exact HN|repeat split; auto].
            * fold P. unfold T'. rewrite <- app_assoc. apply keeps_app. eapply Forall_impl; [|exact HQ]. intros q Hq. cbn beta in *. lia.
          + eapply keeps_outs; [exact KT|exact HOb].
        - intros toks2 cur2 lf2 s3 h2 E3. apply (merge_ok toks2 cur2 lf2 s3 sh (T' ++ X) h2 (qs ++ ps) i bi (nd TkOp (joinOp j) None (Some r) None) nb (sFunc old g)); auto; try reflexivity; [now destruct fi|lia]. }
      assert (checkType (mk toks (S cur) lf1 (sFunc old g) sh T' (headOr h i) ps) (subjType (a_subj b)) = (mk toks (S cur) lf1 (sFunc old g) sh T' (headOr h i) ps, if sh then SNewCtx else SOneNewCtx)) as HCT by (destruct sh, (a_subj b); reflexivity).
      destruct (atom_go b (negb sh) toks (S cur) (restWords rest) lf1 sh T' (headOr h i) ps HB HA2) as (Yb & qb & lf2 & rb & (Erb & Hqb & HOb & nb & HNb & HPb & HTb) & HG).
      cbn [group]. destruct (negb sh && binaryb b) eqn:EB.
      + apply andb_true_iff in EB as [Esh EB]. destruct sh; [discriminate Esh|]. destruct HG as (s2 & E1 & E2 & HG).
        destruct (MG Yb nb rb _ qb Hqb HNb HPb ltac:(lia) HOb) as ((Y2 & EY) & HR2 & HO2 & HM2).
        rewrite EY in *.
        destruct (IH (joinExpr j e (atomExpr b)) toks (S cur + length (atomWords b)) lf2 MdOp ChainOp false i fi va one false T0 Y2 (Some i) (qb ++ ps) HF2 HS2 (or_intror eq_refl) HR2)
          as (cur' & lf' & m' & x' & tf' & r' & fi' & va' & Y3 & h' & qs & K1 & K2 & K3 & K4 & K5 & K6 & K7 & K8); [unfold i; rewrite app_length; lia|exact HO2|].
        exists cur', lf', m', x', tf', r', fi', va', Y3, h', (qs ++ qb). rewrite <- app_assoc. split.
        * apply S1. eapply parses_new; [exact HRd|exact HCT|now right|exact HG|now right|apply HM2; exact E1|reflexivity|].
          assert (S (S cur + (length (atomWords b) - 1)) = S cur + length (atomWords b)) as EQ by lia. rewrite <- EQ in K1. exact K1.
        * split; [exact K2|]. split; [exact K3|]. split; [exact K4|]. split; [exact K5|]. split; [|split].
          -- apply Forall_app. split; auto. eapply Forall_impl; [|exact Hqb]. intros q Hq. cbn beta in *. rewrite LT in Hq. unfold i in Hq. rewrite app_length in Hq. lia.
          -- discriminate.
          -- intros _. destruct rest as [|p rest]; [destruct (K7 eq_refl) as [-> ->]; reflexivity|apply K8; discriminate].
      + destruct HG as (x1 & tf1 & va1 & HG).
        destruct (IH (atomExpr b) toks (S cur + length (atomWords b)) lf2 MdChain x1 tf1 rb (Some (length T')) va1 (negb sh) sh T' Yb (headOr (headOr h i) rb) (qb ++ ps) HF2 HS2 (or_introl eq_refl))
          as (cur' & lf' & m' & x' & tf' & r' & fi' & va' & Y3 & h' & qs & K1 & K2 & K3 & (n3 & K4 & K4' & _) & K5 & K6 & K7 & K8); [exists nb; auto|lia|exact HOb|].
        rewrite app_assoc in K1, K5.
        assert (Forall (fun q => length T' <= fst q) (qs ++ qb)) as HQ2 by (apply Forall_app; auto).
        destruct (MG Y3 n3 r' _ (qs ++ qb) HQ2 K4 K4' K3 K5) as ((Y2 & EY) & HR2 & HO2 & HM2). rewrite EY in *.
        exists (S cur'), lf', MdOp, ChainOp, false, i, fi, va, Y2, (Some i), (qs ++ qb). split.
        * apply S1. pose proof (HG _ K1) as K9.
          assert (negb sh = match (if sh then SNewCtx else SOneNewCtx) with SOneNewCtx => true | _ => false end) as EN by (destruct sh; reflexivity). rewrite EN in K9 at 1.
          eapply (parses_new o _ _ _ _ _ (if sh then SNewCtx else SOneNewCtx)); [exact HRd|exact HCT|destruct sh; auto|exact K9|left; reflexivity|apply HM2; reflexivity|reflexivity|].
          apply parses_end; [|reflexivity]. change (nth_error toks (S cur') = None). apply skip_end. replace (S cur') with (cur' + 1) by lia. rewrite <- skip_skip, K2. reflexivity.
        * split; [replace (S cur') with (cur' + 1) by lia; rewrite <- skip_skip, K2; reflexivity|].
          split; [unfold i; rewrite app_length; lia|]. split; auto. split; auto. split; [|split; [discriminate|auto]].
          eapply Forall_impl; [|exact HQ2]. intros q Hq. cbn beta in *. rewrite LT in Hq. unfold i in Hq. rewrite app_length in Hq. lia.
  Qed.

  (** ** The whole filter *)
  Theorem parse_chain : forall c, chainOk o c -> exists N, forall fuel, N <= fuel ->
    parseSimple o fuel (chainText c) = Ok (group (shortCircuit (chainWords c)) (atomExpr (ch_first c)) (ch_rest c)).
  Proof.
    intros c HC. pose proof (chain_fields _ _ HC) as EF. destruct HC as [HA HR]. set (sh := shortCircuit (chainWords c)).
    assert (at_word (chainWords c) 0 (atomWords (ch_first c) ++ restWords (ch_rest c))) as AW by (exists [], []; split; [now rewrite app_nil_r|auto]).
    destruct (atom_go (ch_first c) false (chainWords c) 0 (restWords (ch_rest c)) [] sh [] None [] HA AW) as (Y & qs & lf2 & r & (Er & Hq & HO & HN) & x & tf & va & HG).
    destruct (chain_go (ch_rest c) (atomExpr (ch_first c)) (chainWords c) (length (atomWords (ch_first c))) lf2 MdChain x tf r (Some 0) va false sh [] Y (Some r) (qs ++ []) HR)
      as (cur' & lf' & m' & x' & tf' & r' & fi' & va' & Y3 & h' & qs2 & K1 & K2 & K3 & (n3 & K4 & _ & K4') & K5 & K6 & K7 & K8); auto.
    { unfold chainWords. rewrite skipn_app, skipn_all, Nat.sub_diag. reflexivity. }
    { cbn. lia. }
    specialize (HG _ K1). destruct HG as [N1 HG]. destruct (outs_outNode (mk (chainWords c) cur' lf' (sb m' x' tf' (Some r') fi' (Some r') va' false) sh ([] ++ Y3) h' (qs2 ++ qs ++ [])) _ _ _ eq_refl eq_refl K5) as [N2 HO2].
    assert (h' = Some r') as Eh by (destruct (ch_rest c) as [|p l]; [destruct (K7 eq_refl) as [-> ->]; reflexivity|apply K8; discriminate]).
    exists (N1 + N2). intros fuel Hf. unfold parseSimple. rewrite EF. unfold startCtx. fold sh. fold (mk (chainWords c) 0 [] (newSub false) sh [] None []).
    rewrite HG by lia. cbn [obind]. unfold outputSimple. cbn [mk c_head c_tree]. rewrite Eh. cbn [app] in *. rewrite K4.
    rewrite K4'. subst h'. now rewrite HO2 by lia.
  Qed.
End Chain.
