(** Calls in simple filters: how they are taken apart and put together again. *)
From Coq Require Import String.
From Verif Require Import Base MTokenizer MLit MFastVal MMath MBinTree SEvents MExpr MExprJson MText MSimple SSimple PSimpleWords PSimpleField PSimple.
From Coq Require Import List NArith ZArith Arith Lia Bool.
Import ListNotations.
Open Scope nat_scope.

(** ** Names and arguments *)
Lemma prefix_key : forall k k2 r, ~ In 40%N k -> ~ In 40%N k2 -> hasPrefix (k ++ 40%N :: r) (k2 ++ [40%N]) = true -> k = k2.
Proof.
  induction k as [|a k IH]; intros [|b k2] r H1 H2 H; cbn [app hasPrefix] in H; auto.
  - apply andb_true_iff in H as [E _]. apply N.eqb_eq in E. subst. exfalso. apply H2. now left.
  - apply andb_true_iff in H as [E _]. apply N.eqb_eq in E. subst. exfalso. apply H1. now left.
  - apply andb_true_iff in H as [E H]. apply N.eqb_eq in E. subst. f_equal. eapply IH; eauto; intros X; [apply H1|apply H2]; now right.
Qed.
Lemma callArgs_body : forall k a body, callArgs k a (k ++ [40%N] ++ body ++ [41%N]) =
  match a with
  | FA0 => match body with [] => Some [] | _ => None end
  | FA1 => match body with [] => None | _ => Some [body] end
  | FA2 => match lastComma [] body with Some (x, y) => Some [x; y] | None => None end
  end.
Proof.
  intros k a body. unfold callArgs. rewrite app_assoc, hasPrefix_app. rewrite app_assoc, hasSuffix_app.
  assert (length k + 2 <=? length (((k ++ [40%N]) ++ body) ++ [41%N]) = true) as -> by (apply Nat.leb_le; rewrite !app_length; cbn [length]; lia). cbn [andb].
  assert (firstn (length (((k ++ [40%N]) ++ body) ++ [41%N]) - length k - 2) (skipn (S (length k)) (((k ++ [40%N]) ++ body) ++ [41%N])) = body) as ->; [|reflexivity].
  rewrite <- app_assoc. replace (S (length k)) with (length (k ++ [40%N])) by (rewrite app_length; cbn [length]; lia). rewrite skipn_app, skipn_all, Nat.sub_diag. cbn [app skipn].
  rewrite !app_length. cbn [length]. replace (length k + 1 + (length body + 1) - length k - 2) with (length body) by lia.
  rewrite firstn_app, firstn_all, Nat.sub_diag. cbn [firstn]. now rewrite app_nil_r.
Qed.
Lemma lastComma_none : forall y b, ~ In 44%N y -> lastComma b y = None.
Proof.
  induction y as [|c y IH]; intros b H; [reflexivity|]. cbn [lastComma]. rewrite IH by (intro; apply H; now right).
  assert (N.eqb c 44 = false) as -> by (apply N.eqb_neq; intros ->; apply H; now left). reflexivity.
Qed.
Lemma lastComma_at : forall x b y, b ++ x <> [] -> y <> [] -> ~ In 44%N y -> lastComma b (x ++ [44%N] ++ y) = Some (b ++ x, y).
Proof.
  induction x as [|c x IH]; intros b y Hb Hy HN; cbn [app lastComma].
  - rewrite lastComma_none by auto. cbn [N.eqb Pos.eqb]. rewrite app_nil_r in *. destruct b; [contradiction|]. destruct y; [contradiction|]. reflexivity.
  - change (x ++ 44%N :: y) with (x ++ [44%N] ++ y). rewrite IH; auto; [now rewrite <- app_assoc|]. destruct b; discriminate.
Qed.
(** The table entry of a function. *)
Lemma builtin_1 : forall n, In n (map fst funs1) -> In (n, FA1, called n) builtins /\ ~ In 40%N n /\ n <> [].
Proof. intros n H. cbn in H. repeat (destruct H as [<- | H]; [split; [cbn; tauto|split; [cbn; intuition discriminate|discriminate]]|]). destruct H. Qed.
Lemma builtin_2 : forall n, In n (map fst funs2) -> In (n, FA2, called n) builtins /\ ~ In 40%N n /\ n <> [].
Proof. intros n H. cbn in H. repeat (destruct H as [<- | H]; [split; [cbn; tauto|split; [cbn; intuition discriminate|discriminate]]|]). destruct H. Qed.
Lemma builtins_keys : forall n a g, In (n, a, g) builtins -> ~ In 40%N n.
Proof. intros n a g H. cbn in H. repeat (destruct H as [E | H]; [injection E as <- _ _; cbn; intuition discriminate|]). destruct H. Qed.
Lemma builtins_find : forall n a g, In (n, a, g) builtins -> find (fun p => bytes_eqb (fst (fst p)) n) builtins = Some (n, a, g).
Proof. intros n a g H. cbn in H. repeat (destruct H as [E | H]; [injection E as <- <- <-; reflexivity|]). destruct H. Qed.
Lemma find_unique : forall (l : list (bytes * farity * bytes)) (f : bytes * farity * bytes -> bool) x, In x l -> f x = true -> (forall y, In y l -> f y = true -> fst (fst y) = fst (fst x)) ->
  (forall y, In y l -> fst (fst y) = fst (fst x) -> y = x) -> find f l = Some x.
Proof.
  induction l as [|y l IH]; intros f x HI HF H1 H2; [destruct HI|]. cbn [find]. destruct (f y) eqn:E.
  - f_equal. apply H2; [now left|]. apply H1; auto. now left.
  - apply IH; auto; [destruct HI as [->|]; [congruence|auto]| |]; intros; [apply H1|apply H2]; auto; now right.
Qed.
Lemma funcKey_call : forall n a g body, In (n, a, g) builtins -> callArgs n a (n ++ [40%N] ++ body ++ [41%N]) <> None -> funcKey (n ++ [40%N] ++ body ++ [41%N]) = Some (n, a, g).
Proof.
  intros n a g body HI HC. unfold funcKey. apply find_unique; auto.
  - cbn [fst snd]. destruct (callArgs n a _); [reflexivity|contradiction].
  - intros [[n2 a2] g2] H2 HF. cbn [fst snd] in *. unfold callArgs in HF. destruct (hasPrefix (n ++ [40%N] ++ body ++ [41%N]) (n2 ++ [40%N])) eqn:E; [|discriminate].
    symmetry. apply (prefix_key n n2 (body ++ [41%N])); auto; eapply builtins_keys; eauto.
  - intros [[n2 a2] g2] H2 E. cbn [fst snd] in E. subst n2. apply builtins_find in HI. apply builtins_find in H2. congruence.
Qed.

Lemma solid_ne : forall w, solid w -> w <> [].
Proof. intros w [H _]. exact H. Qed.
Section Calls.
  Variable o : oracles.
  Lemma argText_ne : forall a, argOk o a -> argText a <> [].
  Proof. intros [l|n f r] H; [apply solid_ne, H|]. cbn [argText]. destruct n; discriminate. Qed.
  Lemma leaf_funcKey : forall l, leafOk o l -> funcKey (leafText l) = None.
  Proof. intros l (_ & H & _). apply funcKey_none. intros HI. eapply without_in; eauto. now left. Qed.
  (** The entry and the arguments of a call. *)
  Definition callBody (f : sarg) (r : list sleaf) : bytes := joinBy [44%N] (argText f :: map leafText r).
  Lemma call_args : forall n f r, argOk o (ACall n f r) -> exists a, In (n, a, called n) builtins /\ callArgs n a (argText (ACall n f r)) = Some (argText f :: map leafText r).
  Proof.
    intros n f r (HN & HF & HR & _). pose proof (argText_ne f HF) as Hne. cbn [argText]. destruct HN as [[HN ->]|[HN HL]].
    - exists FA1. split; [now apply builtin_1|]. rewrite callArgs_body. cbn [map joinBy]. destruct (argText f); [contradiction|reflexivity].
    - exists FA2. split; [now apply builtin_2|]. rewrite callArgs_body. destruct r as [|l [|]]; try discriminate HL. cbn [map joinBy].
      inversion HR as [|? ? (HS & HW & _) _]; subst. rewrite lastComma_at; [reflexivity|exact Hne|now apply solid_ne|].
      intros HI. eapply without_in; eauto. cbn. tauto.
  Qed.
  Lemma call_funcKey : forall n f r, argOk o (ACall n f r) -> exists a, funcKey (argText (ACall n f r)) = Some (n, a, called n) /\ In (n, a, called n) builtins.
  Proof.
    intros n f r H. destruct (call_args n f r H) as (a & HI & HC). exists a. split; auto.
    change (argText (ACall n f r)) with (n ++ [40%N] ++ callBody f r ++ [41%N]) in *. apply funcKey_call; auto. rewrite HC. discriminate.
  Qed.

  (** ** Taking apart *)
  Definition leafArg (l : sleaf) : farg :=
    match l with LPath p => FPath (pathOf p) | LVal (SStr _ ws) => FStr (strText ws) | LVal v => FStr (valText v) end.
  Fixpoint levels (n : nat) (a : sarg) : list (list farg) :=
    match a with
    | ALeaf _ => []
    | ACall k f r => (FStr k :: match f with ALeaf l => leafArg l | _ => FIdx (S n) end :: map leafArg r) :: levels (S n) f
    end.
  Fixpoint depth (a : sarg) : nat := match a with ALeaf _ => 0 | ACall _ f _ => S (depth f) end.
  Lemma leafOk_valueCheck : forall l, leafOk o l ->
    match l with
    | LPath p => valueCheck (leafText l) = VNot /\ forall rest, parseField (leafText l :: rest) = Some (pathOf p, rest)
    | LVal (SStr d ws) => valueCheck (leafText l) = VQuoted (quote d) /\ leafText l = [quote d] ++ strText ws ++ [quote d]
    | LVal _ => valueCheck (leafText l) = VNumber
    end.
  Proof.
    intros [p|v] (HS & HW & H).
    - destruct H as (H1 & H2 & H3 & H4 & H5). cbn [leafText] in *. split.
      + unfold valueCheck. rewrite wordy_isNum by auto. assert (forall q, In q [34; 39]%N -> quotedBy q (pathText p) = false) as X.
        { intros q Hq. unfold quotedBy. destruct (pathText p) as [|c w]; [destruct q; reflexivity|]. cbn [hd hasPrefix] in *.
          assert (N.eqb q c = false) as -> by (apply N.eqb_neq; intros ->; contradiction). cbn [andb]. now rewrite andb_false_r. }
        rewrite !X by (cbn; tauto). reflexivity.
      + intro rest. apply parseField_path; auto. now apply solid_ne.
    - destruct H as [HV HB]. cbn [leafText] in *. destruct v as [neg ds|neg ds fs f|d ws|b]; [| | |contradiction].
      + destruct HV as (V1 & V2 & V3 & V4). destruct (isNum_int neg ds V1 V2 V3) as (E & _ & _). cbn [valText] in *. unfold valueCheck. rewrite E.
        destruct (num_first neg ds [] V1 V2) as (c & r & EQ & HC). rewrite app_nil_r in EQ. rewrite EQ. rewrite !quotedBy_other by (unfold digit in HC; lia). reflexivity.
      + destruct HV as (V1 & V2 & V3 & V4 & V5 & V6). destruct (isNum_dec neg ds fs V1 V2 V3 V4 V5) as (E & _). cbn [valText] in *. unfold valueCheck. rewrite E.
        destruct (num_first neg ds (46%N :: fs) V1 V2) as (c & r & EQ & HC). rewrite EQ. rewrite !quotedBy_other by (unfold digit in HC; lia). reflexivity.
      + split; [|reflexivity]. cbn [valText]. apply valueCheck_quoted.
  Qed.
  Lemma hPush_at : forall A k h a, h_args h = A ++ k -> hPush h (length A) a = {| h_args := A ++ match k with [] => [] | x :: r => (x ++ [a]) :: r end; h_lvl := h_lvl h |}.
  Proof.
    intros A k h a E. unfold hPush. rewrite E. f_equal. destruct k as [|x r].
    - rewrite app_nil_r. clear. induction A as [|y A IH]; [reflexivity|]. cbn [length upd]. f_equal. cbn [nth]. exact IH.
    - rewrite app_nth2 by lia. rewrite Nat.sub_diag. cbn [nth]. clear. induction A as [|y A IH]; [reflexivity|]. cbn [length app upd]. f_equal. exact IH.
  Qed.
  (** Arguments that are no calls. *)
  Lemma resolve_leaves : forall R key first A B r x h k, Forall (leafOk o) r -> length r < k -> h_args h = A ++ x :: B ->
    (key = s2b "DATE" -> Forall (fun l => match l with LVal (SStr _ ws) => exists t, o_parseRFC3339 o (strText ws) = Some t | _ => True end) r) ->
    resolveArgs o R k key first (length A) (map leafText r) h = Some ({| h_args := A ++ (x ++ map leafArg r) :: B; h_lvl := h_lvl h |}, false).
  Proof.
    intros R key first A B. induction r as [|l r IH]; intros x h k HR Hk EH HD; (destruct k as [|k]; [cbn in Hk; lia|]); cbn [map resolveArgs].
    - rewrite app_nil_r, <- EH. now destruct h.
    - inversion HR as [|? ? HL HR2]; subst. rewrite leaf_funcKey by auto.
      assert (forall a, resolveArgs o R k key first (length A) (map leafText r) (hPush h (length A) a) = Some ({| h_args := A ++ (x ++ a :: map leafArg r) :: B; h_lvl := h_lvl h |}, false)) as G.
      { intro a. rewrite (hPush_at A (x :: B)) by auto. rewrite (IH (x ++ [a])); [now rewrite <- app_assoc|auto|cbn in Hk; lia|reflexivity|].
        intro E. specialize (HD E). now inversion HD. }
      pose proof (leafOk_valueCheck l HL) as V. destruct l as [p|[neg ds|neg ds fs f|d ws|b]].
      + destruct V as [-> V]. rewrite V. apply G.
      + rewrite V. apply G.
      + rewrite V. apply G.
      + destruct V as [V E]. rewrite V, E, trimPrefix_app, trimSuffix_app.
        assert (bytes_eqb key (s2b "DATE") && negb (validTime o (strText ws)) = false) as ->; [|apply G].
        destruct (bytes_eqb key (s2b "DATE")) eqn:EK; [|reflexivity]. apply bytes_eqb_eq in EK. specialize (HD EK). apply Forall_inv in HD. destruct HD as [t Ht]. unfold validTime. now rewrite Ht.
      + destruct HL as (_ & _ & _ & []).
  Qed.
  Lemma resolveArgs_call : forall R k key first fx s r h key' a g h' e, funcKey s = Some (key', a, g) ->
    R {| h_args := h_args h ++ [[]]; h_lvl := length (h_args h) |} first key' = Some (h', e) ->
    resolveArgs o R (S k) key first fx (s :: r) h = resolveArgs o R k key first fx r (hPush h' fx (FIdx (length (h_args h)))).
  Proof. intros R k key first fx s r h key' a g h' e E1 E2. cbn [resolveArgs]. rewrite E1. cbv zeta. now rewrite E2. Qed.
  Fixpoint lastLevel (n : nat) (a : sarg) : nat := match a with ACall _ (ACall n2 f2 r2 as f) _ => lastLevel (S n) f | _ => n end.
  Lemma resolve_call : forall a, argOk o a -> isCall a -> forall k, (match a with ACall n _ _ => n | _ => [] end) = k -> forall fuel A lvl, depth a <= fuel -> lvl = length A ->
    resolve o fuel {| h_args := A ++ [[]]; h_lvl := lvl |} (argText a) k = Some ({| h_args := A ++ levels (length A) a; h_lvl := lastLevel (length A) a |}, false).
  Proof.
    induction a as [l|n f IH r]; intros HO HC k HK fuel A lvl Hf ->; [destruct HC|]. subst k. cbn [depth] in Hf. destruct fuel as [|fuel]; [lia|]. cbn [resolve].
    destruct (call_args n f r HO) as (ar & HI & EA). rewrite (builtins_find _ _ _ HI). cbv zeta. rewrite EA. cbn [h_lvl hd length]. rewrite map_length.
    rewrite (hPush_at A [[]]) by reflexivity. cbn [app h_lvl]. destruct HO as (HN & HF & HR & HD). cbn [levels].
    assert (n = s2b "DATE" -> r = []) as HDr by (intros ->; destruct HN as [[_ ->]|[HN _]]; [reflexivity|cbn in HN; intuition discriminate]).
    destruct f as [l|n2 f2 r2].
    - cbn [levels map argText]. change (leafText l :: map leafText r) with (map leafText (l :: r)).
      rewrite (resolve_leaves _ n _ A [] (l :: r) [FStr n]); auto.
      intros EN. constructor; [|rewrite (HDr EN); constructor]. cbn [dateOk] in HD. destruct l as [p|[]]; auto.
    - destruct (call_funcKey n2 f2 r2 HF) as (a2 & EK & _).
      assert (depth (ACall n2 f2 r2) <= fuel) as Hd by (cbn [depth] in *; lia).
      pose proof (IH HF I n2 eq_refl fuel (A ++ [[FStr n]]) (length (A ++ [[FStr n]])) Hd eq_refl) as EQ.
      rewrite (resolveArgs_call (resolve o fuel) _ n _ (length A) _ (map leafText r) {| h_args := A ++ [[FStr n]]; h_lvl := length A |} _ _ _ _ _ EK EQ). cbn [h_args]. rewrite app_length. cbn [length]. rewrite Nat.add_1_r.
      rewrite (hPush_at A ([FStr n] :: levels (S (length A)) (ACall n2 f2 r2))) by (cbn [h_args]; now rewrite <- app_assoc).
      rewrite (resolve_leaves _ n _ A (levels (S (length A)) (ACall n2 f2 r2)) r [FStr n; FIdx (S (length A))]); auto.
      intros EN. rewrite (HDr EN). constructor.
  Qed.

  (** ** Putting together *)
  Lemma leaf_out : forall l, leafOk o l -> match leafArg l with FStr s => outValue o s = Ok (leafExpr l) | FPath p => leafExpr l = XField 0 p | _ => False end.
  Proof.
    intros [p|v] (_ & _ & H); [reflexivity|]. destruct H as [HV HB]. destruct v as [neg ds|neg ds fs f|d ws|b]; [| | |contradiction]; cbn [leafArg leafExpr valText valGo].
    - now apply int_out.
    - now apply dec_out.
    - now apply (str_out o d).
  Qed.
  Definition outArgs (F : nat -> outcome expr) : list farg -> outcome (list expr) :=
    fix go l := match l with
      | [] => Ok []
      | FIdx n :: r => do e <- F n; match e with XFunc _ _ => do es <- go r; Ok (e :: es) | _ => Panic end
      | FPath p :: r => do es <- go r; Ok (XField 0 p :: es)
      | FStr s :: r => do e <- outValue o s; do es <- go r; Ok (e :: es)
      end.
  Lemma outArgs_cons : forall F x r, outArgs F (x :: r) = match x with
      | FIdx n => do e <- F n; match e with XFunc _ _ => do es <- outArgs F r; Ok (e :: es) | _ => Panic end
      | FPath p => do es <- outArgs F r; Ok (XField 0 p :: es)
      | FStr s => do e <- outValue o s; do es <- outArgs F r; Ok (e :: es)
      end.
  Proof. intros F [] r; reflexivity. Qed.
  Lemma outFunc_step : forall fuel h lvl n ar x l, nth_error (h_args h) lvl = Some (FStr n :: x :: l) -> In (n, ar, called n) builtins ->
    outFunc o (S fuel) h lvl = do es <- outArgs (outFunc o fuel h) (x :: l); Ok (XFunc (called n) es).
  Proof. intros fuel h lvl n ar x l E HI. cbn [outFunc]. rewrite E, (builtins_find _ _ _ HI). reflexivity. Qed.
  Lemma outArgs_leaves : forall F r, Forall (leafOk o) r -> outArgs F (map leafArg r) = Ok (map leafExpr r).
  Proof.
    intros F r HR. induction HR as [|l r HL HR IH]; [reflexivity|]. cbn [map]. rewrite outArgs_cons. pose proof (leaf_out l HL) as HO.
    destruct (leafArg l); [rewrite HO|destruct HO|rewrite HO]; cbn [obind]; rewrite IH; reflexivity.
  Qed.
  Lemma outFunc_call : forall a, argOk o a -> isCall a -> forall A B l fuel, depth a <= fuel ->
    outFunc o fuel {| h_args := A ++ levels (length A) a ++ B; h_lvl := l |} (length A) = Ok (argExpr a).
  Proof.
    induction a as [l|n f IH r]; intros HO HC A B lv fuel Hf; [destruct HC|]. cbn [depth] in Hf. destruct fuel as [|fuel]; [lia|].
    destruct (call_args n f r HO) as (ar & HI & EA). cbn [levels]. destruct HO as (HN & HF & HR & HD).
    erewrite outFunc_step; [|cbn [h_args]; rewrite nth_error_app2 by lia; rewrite Nat.sub_diag; reflexivity|exact HI].
    cbn [argExpr]. destruct f as [l|n2 f2 r2].
    - change (leafArg l :: map leafArg r) with (map leafArg (l :: r)). rewrite outArgs_leaves by auto. reflexivity.
    - rewrite outArgs_cons.
      pose proof (IH HF I (A ++ [FStr n :: FIdx (S (length A)) :: map leafArg r]) B lv fuel ltac:(lia)) as EQ. rewrite app_length in EQ. cbn [length] in EQ. rewrite Nat.add_1_r, <- app_assoc in EQ.
      cbn [app] in EQ |- *. rewrite EQ. cbn [obind argExpr]. rewrite outArgs_leaves by auto. reflexivity.
  Qed.

  (** ** Reading *)
  Lemma call_first : forall n a g, In (n, a, g) builtins -> exists c r, n = c :: r /\ (65 <= c <= 90)%N.
  Proof. intros n a g H. cbn in H. repeat (destruct H as [E|H]; [injection E as <- _ _; eexists _, _; split; [reflexivity|cbn; lia]|]). destruct H. Qed.
  Lemma read_call : forall a toks cur ws lf s sh T h ps, argOk o a -> isCall a -> at_word toks cur (argText a :: ws) -> sc_mode s = MdField \/ sc_mode s = MdValue ->
    reads o (mk toks cur lf s sh T h ps) (mk toks cur lf (sFunc s (Some {| h_args := levels 0 a; h_lvl := 0 |})) sh T h ps, argText a, TkFunc, SNil).
  Proof.
    intros a toks cur ws lf s sh T h ps HO HC HA HM. exists (S (depth a)). intros [|f] Hf; [lia|]. destruct a as [l|n f0 r]; [destruct HC|].
    destruct (call_funcKey n f0 r HO) as (ar & EK & HI). set (t := argText (ACall n f0 r)) in *.
    assert (In 40%N t) as H40 by (unfold t; cbn [argText]; apply in_or_app; right; now left).
    destruct (call_first _ _ _ HI) as (c & n' & En & Hc). assert (exists r', t = c :: r') as [r' Et] by (unfold t; rewrite En; cbn [argText app]; eauto).
    cbn [getToken mk c_toks c_cur c_sub]. rewrite (at_head _ _ _ _ HA). cbv zeta.
    assert (forall w, ~ In 40%N w -> bytes_eqb t w = false) as NE by (intros w Hw; apply bytes_eqb_neq; intros E; rewrite E in H40; contradiction).
    rewrite !NE by (cbn; intuition discriminate). cbn [orb].
    assert (isOp t = false) as ->.
    { destruct (isOp t) eqn:E; auto. apply isOp_in in E. exfalso. revert E H40. clearbody t. clear. intros E H. cbn in E.
      repeat (destruct E as [E|E]; [rewrite <- E in H; cbn in H; intuition discriminate|]). destruct E. }
    assert (valueCheck t = VNot) as ->.
    { unfold valueCheck. rewrite wordy_isNum by (exists 40%N; split; [auto|unfold digit; lia]). rewrite Et, !quotedBy_other by lia. reflexivity. }
    rewrite EK. unfold funcToken. cbn [mk c_sub].
    pose proof (resolve_call (ACall n f0 r) HO I n eq_refl f [] 0 ltac:(lia) eq_refl) as EQ. cbn [app length] in EQ. fold t in EQ. rewrite EQ.
    destruct HM as [-> | ->]; reflexivity.
  Qed.
End Calls.
