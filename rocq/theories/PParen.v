(** The simple parser keeps count of the parentheses. *)
From Coq Require Import String.
From Verif Require Import Base MTokenizer MLit MFastVal MMath MBinTree SEvents MExpr MExprJson MText MSimple PSimpleTerm SParen.
From Coq Require Import List NArith ZArith Arith Lia Bool.
Import ListNotations.
Open Scope nat_scope.

(** ** Texts *)
Definition paren (c : N) : bool := N.eqb c 40 || N.eqb c 41.
Definition par (t : list N) : list N := filter paren t.
Lemma open_par : forall t d, openAfter d (par t) = openAfter d t.
Proof.
  induction t as [|c t IH]; intros d; [reflexivity|]. unfold par in *. cbn [filter openAfter]. unfold paren at 1.
  destruct (N.eqb c 40) eqn:E1; cbn [orb]; [cbn [openAfter]; rewrite E1; apply IH|].
  destruct (N.eqb c 41) eqn:E2; [cbn [openAfter]; rewrite E1, E2; destruct d; auto|]. apply IH.
Qed.
Lemma open_same : forall a b d, par a = par b -> openAfter d a = openAfter d b.
Proof. intros a b d H. rewrite <- (open_par a), <- (open_par b), H. reflexivity. Qed.
Lemma par_app : forall a b, par (a ++ b) = par a ++ par b.
Proof. intros. apply filter_app. Qed.
Lemma par_none : forall a, ~ In 40%N a -> ~ In 41%N a -> par a = [].
Proof.
  induction a as [|c a IH]; intros H1 H2; [reflexivity|]. unfold par in *. cbn [filter]. unfold paren at 1.
  destruct (N.eqb_spec c 40) as [->|_]; [exfalso; apply H1; now left|]. destruct (N.eqb_spec c 41) as [->|_]; [exfalso; apply H2; now left|].
  cbn [orb]. apply IH; intro K; [apply H1|apply H2]; now right.
Qed.
Lemma par_none_b : forall a, forallb (fun c => negb (paren c)) a = true -> par a = [].
Proof.
  induction a as [|c a IH]; intro H; [reflexivity|]. cbn [forallb] in H. apply andb_true_iff in H as [H1 H2]. unfold par in *. cbn [filter].
  apply negb_true_iff in H1. rewrite H1. auto.
Qed.
Lemma par_rev : forall a, par (rev a) = rev (par a).
Proof.
  induction a as [|c a IH]; [reflexivity|]. cbn [rev]. rewrite par_app, IH. unfold par. cbn [filter]. destruct (paren c); [reflexivity|]. apply app_nil_r.
Qed.

Definition sub (y w : list N) : Prop := exists x z, w = x ++ y ++ z.
Lemma sub_bare : forall y w, sub y w -> bare w -> bare y.
Proof.
  intros y w [x [z ->]] [H1 [H2 [H3 H4]]]. rewrite !in_app_iff in *. repeat split; try tauto.
  intros a c b ->. apply (H4 (x ++ a) c (b ++ z)). rewrite <- !app_assoc. reflexivity.
Qed.
Lemma sub_refl : forall w, sub w w.
Proof. intros w. exists [], []. rewrite app_nil_r. reflexivity. Qed.

(** ** Splitting words *)
Lemma ops_par : forall op, isOp op = true -> par op = [].
Proof.
  assert (forallb (fun op => forallb (fun c => negb (paren c)) op) (chainOps ++ equalOps ++ compareOps ++ likeOps ++ onlyOps) = true) as H by reflexivity.
  intros op HO. unfold isOp, isOneOf in HO. apply existsb_exists in HO as [x [HI HE]]. apply bytes_eqb_eq in HE as ->. rewrite forallb_forall in H. apply par_none_b. now apply H.
Qed.
Lemma in_par : forall c a, par a = [] -> In c a -> paren c = false.
Proof.
  intros c a H HI. destruct (paren c) eqn:E; [|reflexivity]. assert (In c (par a)) as K by (apply filter_In; auto). rewrite H in K. destruct K.
Qed.
Lemma dropSet_par : forall s d, par d = [] -> par (dropSet s d) = par s.
Proof.
  intros s d H. induction s as [|c s IH]; [reflexivity|]. cbn [dropSet]. destruct (hasByte d c) eqn:E; [|reflexivity].
  apply hasByte_in in E. apply (in_par c d H) in E. rewrite IH. unfold par. cbn [filter]. rewrite E. reflexivity.
Qed.
Lemma trimSet_par : forall s d, par d = [] -> par (trimSet s d) = par s.
Proof. intros s d H. unfold trimSet. rewrite par_rev, dropSet_par by exact H. rewrite par_rev, rev_involutive. now apply dropSet_par. Qed.
Lemma trimSet_sub : forall s d, sub (trimSet s d) s.
Proof.
  intros s d. unfold trimSet. destruct (dropSet_suffix s d) as [p E]. destruct (dropSet_suffix (rev (dropSet s d)) d) as [q F].
  exists p, (rev q). rewrite <- rev_app_distr, <- F, rev_involutive. exact E.
Qed.
Lemma splitFirst_runs : forall t op, seekOp t = Some op -> bare t -> Forall bare (splitFirst t op) /\ par (concat (splitFirst t op)) = par t.
Proof.
  intros t op HS HB. apply seekOp_sound in HS as [HO _]. pose proof (ops_par op HO) as HP.
  unfold splitFirst. destruct (bytes_eqb t op) eqn:E; [apply bytes_eqb_eq in E as ->; cbn [concat]; rewrite app_nil_r; split; [apply Forall_cons; auto|reflexivity]|].
  destruct (cut t op) as [[a b]|] eqn:EC; [|cbn [concat]; rewrite app_nil_r; split; [apply Forall_cons; auto|reflexivity]].
  apply cut_sound in EC. assert (bare op /\ bare b /\ bare a) as [B1 [B2 B3]].
  { split; [|split]; (eapply sub_bare; [|exact HB]); rewrite EC; [exists a, b; reflexivity|exists (a ++ op), []; rewrite app_nil_r, app_assoc; reflexivity|exists [], (op ++ b); reflexivity]. }
  destruct a as [|x a].
  - split; [repeat (apply Forall_cons; auto)|]. rewrite EC. cbn [concat app]. rewrite app_nil_r. reflexivity.
  - destruct b as [|y b].
    + split; [repeat (apply Forall_cons; auto)|]. rewrite EC. cbn [concat]. rewrite !app_nil_r. reflexivity.
    + split.
      * repeat (apply Forall_cons; auto). eapply sub_bare; [|exact HB]. destruct (trimSet_sub ((x :: a) ++ op) op) as [p [q F]]. exists p, (q ++ y :: b).
        rewrite EC, app_assoc. rewrite F at 1. rewrite <- !app_assoc. reflexivity.
      * rewrite EC. cbn [concat]. rewrite app_nil_r, !par_app, trimSet_par by exact HP. rewrite par_app, HP, app_nil_r. reflexivity.
Qed.
Lemma splitSuffix_runs : forall t p, bare t -> Forall bare (splitSuffix t p) /\ concat (splitSuffix t p) = t.
Proof.
  intros t p HB. destruct (splitSuffix_spec t p) as [u [n [E1 [E2 _]]]]. rewrite E1. assert (concat (repeat [p] n) = repeat p n) as EC by (clear; induction n; cbn; congruence). split.
  - apply Forall_cons; [eapply sub_bare; [|exact HB]; exists [], (repeat p n); exact E2|]. apply Forall_forall. intros x HI. pose proof (repeat_spec _ _ _ HI) as ->.
    eapply sub_bare; [|exact HB]. rewrite E2. destruct n; [destruct HI|]. exists u, (repeat p n). reflexivity.
  - cbn [concat]. rewrite EC. symmetry. exact E2.
Qed.
Lemma head_runs : forall t p, hasPrefix t [p] = true -> bare t -> Forall bare [[p]; trimPrefix t [p]] /\ concat [[p]; trimPrefix t [p]] = t.
Proof.
  intros t p H HB. unfold trimPrefix. rewrite H. apply hasPrefix_app in H as [r ->]. cbn [app length skipn concat]. rewrite app_nil_r. split; [|reflexivity].
  constructor; [eapply sub_bare; [|exact HB]; exists [], r; reflexivity|]. constructor; [|constructor]. eapply sub_bare; [|exact HB]. exists [p], []. rewrite app_nil_r. reflexivity.
Qed.

(** ** Words without parentheses *)
Lemma digits_par : forall f, forallb isDigit f = true -> par f = [].
Proof.
  intros f H. apply par_none_b. rewrite forallb_forall in *. intros c HI. specialize (H c HI). unfold isDigit in H. apply andb_true_iff in H as [H _]. apply N.leb_le in H.
  unfold paren. destruct (N.eqb_spec c 40) as [->|]; [lia|]. destruct (N.eqb_spec c 41) as [->|]; [lia|]. reflexivity.
Qed.
Lemma digit_par : forall c r, isDigit c = true -> par (c :: r) = par r.
Proof. intros c r H. change (c :: r) with ([c] ++ r). rewrite par_app, (digits_par [c]); [reflexivity|]. cbn. rewrite H. reflexivity. Qed.
Lemma digitsThen_par : forall r, par (digitsThen r) = par r.
Proof. induction r as [|c r IH]; [reflexivity|]. cbn [digitsThen]. destruct (isDigit c) eqn:E; [|reflexivity]. rewrite digit_par by exact E. exact IH. Qed.
Lemma num_par : forall s, isNum s = true -> par s = [].
Proof.
  intros s H. unfold isNum in H. cbv zeta in H.
  assert (par (match s with c :: r => if N.eqb c 45 then r else s | [] => [] end) = par s) as E.
  { destruct s as [|c r]; [reflexivity|]. destruct (N.eqb_spec c 45) as [->|]; reflexivity. }
  rewrite <- E. destruct (match s with c :: r => if N.eqb c 45 then r else s | [] => [] end) as [|c r]; [reflexivity|]. clear s E.
  assert (forall l, match l with [] => true | d :: f => N.eqb d 46 && (match f with [] => false | _ => true end) && forallb isDigit f end = true -> par l = []) as HT.
  { intros [|d f] X; [reflexivity|]. apply andb_true_iff in X as [X1 X2]. apply andb_true_iff in X1 as [X1 _]. apply N.eqb_eq in X1 as ->.
    change (46%N :: f) with ([46%N] ++ f). rewrite par_app, (digits_par f X2). reflexivity. }
  destruct (N.eqb_spec c 48) as [->|_]; [rewrite digit_par by reflexivity; apply HT; exact H|].
  destruct (isDigit c) eqn:ED; [|discriminate]. rewrite digit_par by exact ED. rewrite <- digitsThen_par. apply HT. exact H.
Qed.
Lemma call_not_bare : forall t x, funcKey t = Some x -> ~ bare t.
Proof.
  assert (forallb (fun p : bytes * farity * bytes => match rev (fst (fst p)) with c :: _ => alnum c | [] => false end) builtins = true) as HN by reflexivity.
  intros t x H [_ [_ [_ HC]]]. unfold funcKey in H. apply find_some in H as [HI H]. rewrite forallb_forall in HN. specialize (HN _ HI).
  destruct x as [[name a] out]. cbn [fst snd] in *. unfold callArgs in H. destruct (hasPrefix t (name ++ [40%N])) eqn:E; [|discriminate]. apply hasPrefix_app in E as [r ->].
  destruct (rev name) as [|c m] eqn:ER; [discriminate|]. assert (name = rev m ++ [c]) as -> by (rewrite <- (rev_involutive name), ER; reflexivity).
  rewrite (HC (rev m) c r) in HN; [discriminate|]. rewrite <- !app_assoc. reflexivity.
Qed.
Lemma multi_par : forall toks (valid : list (list bytes * bytes)) i j op, (forall p w, In p valid -> In w (fst p) -> par w = []) -> multiSeek valid i toks = Some (j, op) ->
  i <= j /\ exists u v, toks = u ++ v /\ length u = S (j - i) /\ par (concat u) = [].
Proof.
  induction toks as [|t r IH]; intros valid i j op HV H; [discriminate|]. cbn [multiSeek] in H.
  set (v := filter (fun p : list bytes * bytes => match nth_error (fst p) i with Some w => bytes_eqb w t | None => false end) valid) in H.
  assert (forall p, In p v -> In p valid /\ nth_error (fst p) i = Some t) as Hv.
  { intros p HI. apply filter_In in HI as [A B]. split; [exact A|]. destruct (nth_error (fst p) i) as [w|]; [|discriminate]. apply bytes_eqb_eq in B as ->. reflexivity. }
  assert (forall p w, In p v -> In w (fst p) -> par w = []) as Hv2 by (intros p w A B; apply Hv in A as [A _]; eapply HV; eauto).
  assert (v <> [] -> par t = []) as Ht by (intro NE; destruct v as [|p v']; [contradiction|]; destruct (Hv p (or_introl eq_refl)) as [A B]; eapply HV; [exact A|eapply nth_error_In; exact B]).
  assert (multiSeek v (S i) r = Some (j, op) -> i <= j /\ exists u v, t :: r = u ++ v /\ length u = S (j - i) /\ par (concat u) = []) as HR.
  { intro HM. destruct v as [|p v'] eqn:Ev.
    - exfalso. clear - HM. revert HM. generalize (S i). clear i. induction r as [|t r IH]; intros i HM; [discriminate|]. cbn in HM. now apply IH in HM.
    - destruct (IH _ _ _ _ Hv2 HM) as [HL [u [w [E1 [E2 E3]]]]]. split; [lia|]. exists (t :: u), w. split; [rewrite E1; reflexivity|]. split; [cbn [length]; lia|].
      cbn [concat]. rewrite par_app, Ht by discriminate. exact E3. }
  clearbody v. destruct v as [|[w o0] [|q v']]; auto. destruct (i =? length w - 1); auto. injection H as <- <-. split; [lia|]. exists [t], r.
  split; [reflexivity|]. split; [cbn [length]; lia|]. cbn [concat]. rewrite app_nil_r. apply Ht. discriminate.
Qed.
Lemma multiWords_par : forall p w, In p multiWords -> In w (fst p) -> par w = [].
Proof.
  assert (forallb (fun p => forallb (fun w => forallb (fun c => negb (paren c)) w) (fst p)) multiWords = true) as H by reflexivity.
  intros p w A B. rewrite forallb_forall in H. specialize (H p A). rewrite forallb_forall in H. apply par_none_b. now apply H.
Qed.
Lemma fieldLoop_mode : forall tok rest pos s s', ~ In 96%N rest -> f_mode s <> FTick -> fieldLoop tok rest pos s = Some s' -> f_mode s' <> FTick.
Proof.
  induction rest as [|c r IH]; intros pos s s' HN HM H; [injection H as <-; exact HM|].
  assert (~ In 96%N r) as HN2 by (intro K; apply HN; now right). assert (N.eqb c 96 = false) as EC by (apply N.eqb_neq; intros ->; apply HN; now left).
  cbn [fieldLoop] in H. rewrite EC in H. destruct (f_mode s) eqn:EM; [| |]; [|contradiction|].
  - destruct (N.eqb c 46); [eapply IH; [exact HN2| |exact H]; discriminate|]. destruct (N.eqb c 91); (eapply IH; [exact HN2| |exact H]); [discriminate|congruence].
  - destruct (pos =? f_begin s); [eapply IH; [exact HN2| |exact H]; congruence|]. destruct ((pos =? S (f_begin s)) && N.eqb c 48); [discriminate|].
    destruct (negb (isDigit c) && negb (N.eqb c 93)); [discriminate|]. destruct (N.eqb c 93); [|eapply IH; [exact HN2| |exact H]; congruence].
    destruct (pos =? S (f_begin s)); [discriminate|]. eapply IH; [exact HN2| |exact H]. discriminate.
Qed.
Lemma parseField_one : forall t r p r', ~ In 96%N t -> parseField (t :: r) = Some (p, r') -> r' = r.
Proof.
  intros t r p r' HN H. unfold parseField in H. destruct t as [|c t]; [discriminate|]. cbn [fieldWords] in H.
  match type of H with match fieldLoop ?a ?b ?n ?s with _ => _ end = _ => destruct (fieldLoop a b n s) as [s'|] eqn:E; [|discriminate] end.
  apply fieldLoop_mode in E; [|exact HN|discriminate]. destruct (f_mode s'); [|contradiction|discriminate]. injection H as _ <-. reflexivity.
Qed.

(** ** The state *)
Definition ahead (c : ctx) : option nat := openAfter (c_depth c) (concat (skipn (c_cur c) (c_toks c))).
Definition beyond (c : ctx) : option nat := openAfter (c_depth c) (concat (skipn (S (c_cur c)) (c_toks c))).
Definition good (c : ctx) : Prop := Forall bare (c_toks c).
Lemma skip_cur : forall c t, nth_error (c_toks c) (c_cur c) = Some t -> skipn (c_cur c) (c_toks c) = t :: skipn (S (c_cur c)) (c_toks c).
Proof. intros. now apply PSimpleTerm.skipn_cons. Qed.
Lemma put_runs : forall c t l, nth_error (c_toks c) (c_cur c) = Some t -> Forall bare l -> par (concat l) = par t -> good c -> good (putToks c l) /\ ahead (putToks c l) = ahead c.
Proof.
  intros c t l HT HL HP HG. unfold good, putToks in *. cbn [withToks c_toks c_cur c_depth]. split.
  - apply Forall_app. split; [rewrite <- (firstn_skipn (c_cur c) (c_toks c)) in HG; apply Forall_app in HG; tauto|]. apply Forall_app. split; [exact HL|].
    rewrite <- (firstn_skipn (S (c_cur c)) (c_toks c)) in HG. apply Forall_app in HG. tauto.
  - unfold ahead. cbn [withToks c_toks c_cur c_depth]. rewrite (skip_cur c t HT). assert (length (firstn (c_cur c) (c_toks c)) = c_cur c) as EL.
    { apply firstn_length_le. apply Nat.lt_le_incl, nth_error_Some. congruence. }
    rewrite <- EL at 1. rewrite skipn_app, skipn_all, Nat.sub_diag. cbn [app skipn]. apply open_same. rewrite concat_app. cbn [concat]. rewrite !par_app, HP. reflexivity.
Qed.
Lemma ahead_word : forall c t, nth_error (c_toks c) (c_cur c) = Some t -> par t = [] -> beyond c = ahead c.
Proof. intros c t HT HP. unfold ahead, beyond. rewrite (skip_cur c t HT). cbn [concat]. apply open_same. rewrite par_app, HP. reflexivity. Qed.

Definition runs (c c' : ctx) (ty : ttype) (e : serr) : Prop :=
  good c -> e <> SOneDone /\ (e = SNoMore -> good c' /\ ahead c = Some (c_depth c') /\ beyond c' = ahead c) /\
  (e = SNil -> good c' /\ (ty = TkParen -> ahead c' = ahead c) /\ (ty <> TkParen -> beyond c' = ahead c) /\
     (ty = TkField \/ ty = TkFunc -> ahead c' = ahead c)).
Lemma runs_err : forall c c' ty, runs c c' ty SOther.
Proof. intros c c' ty _. split; [discriminate|]. split; discriminate. Qed.
Lemma runs_word : forall c c' t ty, nth_error (c_toks c) (c_cur c) = Some t -> par t = [] -> c_toks c' = c_toks c -> c_cur c' = c_cur c -> c_depth c' = c_depth c ->
  ty <> TkParen -> runs c c' ty SNil.
Proof.
  intros c c' t ty HT HP E1 E2 E3 HN HG. split; [discriminate|]. split; [discriminate|]. intros _. pose proof (ahead_word c t HT HP) as HA.
  unfold good, ahead, beyond in *. rewrite E1, E2, E3. repeat split; auto; congruence.
Qed.
Lemma close_runs : forall c r c' e, skipn (c_cur c) (c_toks c) = [41%N] :: r -> closeParen c = (c', e) -> runs c c' TkEndParen e.
Proof.
  intros c r c' e HT H. unfold closeParen in H. destruct (c_depth c) as [|d] eqn:ED; injection H as <- <-; [apply runs_err|].
  assert (skipn (S (c_cur c)) (c_toks c) = r) as ER.
  { change (S (c_cur c)) with (1 + c_cur c). rewrite skipn_plus, HT. reflexivity. }
  assert (forall e, e = SNil \/ e = SOther -> runs c (withDepth c d) TkEndParen e) as HR.
  { intros e [-> | ->]; [|apply runs_err]. intro HG. split; [discriminate|]. split; [discriminate|]. intros _. split; [exact HG|]. split; [discriminate|]. split; [intros _|intros [X|X]; discriminate].
    unfold beyond, ahead. cbn [withDepth c_depth c_toks c_cur]. rewrite ER, HT, ED. reflexivity. }
  apply HR. destruct (sc_op (c_sub c)), (sc_bool (c_sub c)), (sc_mode (c_sub c)); auto.
Qed.
Lemma open_runs : forall c c' e, nth_error (c_toks c) (c_cur c) = Some [40%N] -> openParen c = (c', e) -> runs c c' TkParen e.
Proof.
  intros c c' e HT H. unfold openParen in H. rewrite advance_adv in H by reflexivity. injection H as <- <-. intro HG.
  split; [discriminate|]. split; [discriminate|]. intros _. split; [exact HG|]. split; [intros _|split; [congruence|intros [X|X]; discriminate]].
  unfold ahead. cbn [withAdv withToks withDepth c_toks c_cur c_depth]. rewrite (skip_cur c _ HT). reflexivity.
Qed.
Lemma runs_put : forall c t l c' ty e, nth_error (c_toks c) (c_cur c) = Some t -> Forall bare l -> par (concat l) = par t ->
  runs (putToks c l) c' ty e -> runs c c' ty e.
Proof. intros c t l c' ty e HT HL HP HR HG. destruct (put_runs c t l HT HL HP HG) as [A B]. rewrite <- B. exact (HR A). Qed.
Lemma quoted_in : forall q t, quotedBy q t = true -> In q t.
Proof. intros q t H. unfold quotedBy in H. apply andb_true_iff in H as [H _]. apply andb_true_iff in H as [_ H]. apply hasPrefix_app in H as [r ->]. now left. Qed.
Lemma not_has_par : forall u, hasByte u 40 || hasByte u 41 = false -> par u = [].
Proof. intros u H. apply orb_false_iff in H as [A B]. apply par_none; intro K; apply hasByte_in in K; congruence. Qed.

Section Runs.
  Variable o : oracles.
  Lemma getToken_runs : forall f c c' t ty e, getToken o f c = Ok (c', t, ty, e) -> runs c c' ty e.
  Proof.
    induction f as [|f IH]; intros c c' t ty e H; [discriminate|]. intro HGood. revert HGood. cbn [getToken] in H. destruct (nth_error (c_toks c) (c_cur c)) as [u|] eqn:HT.
    2:{ injection H as <- <- <- <-. intro HG. apply nth_error_None in HT. split; [discriminate|]. split; [|discriminate]. intros _.
        split; [exact HG|]. unfold ahead, beyond. rewrite !skipn_all2 by lia. auto. }
    intro HG. assert (bare u) as HB by (unfold good in HG; rewrite Forall_forall in HG; apply HG; eapply nth_error_In; exact HT). revert HG. change (runs c c' ty e).
    cbv zeta in H. destruct (bytes_eqb u (s2b "NOT") || bytes_eqb u (s2b "IS")).
    { destruct (multiSeek _ _ _) as [[i op]|] eqn:EM; injection H as <- <- <- <-; [|apply runs_err].
      destruct (markOp_keeps (withToks c (c_toks c) (c_cur c + i)) op) as [_ [M2 [M3 M4]]]. apply multi_par in EM as [_ [x [y [E1 [E2 E3]]]]]; [|exact multiWords_par].
      intro HG. split; [discriminate|]. split; [discriminate|]. intros _. unfold good, ahead, beyond. rewrite M2, M3, M4. cbn [withToks c_toks c_cur c_depth].
      split; [exact HG|]. split; [discriminate|]. split; [intros _|intros [X|X]; discriminate].
      replace (S (c_cur c + i)) with (S i + c_cur c) by lia. rewrite skipn_plus, E1. replace (S i) with (length x) by lia. rewrite skipn_app, skipn_all, Nat.sub_diag. cbn [app skipn].
      apply open_same. rewrite concat_app, par_app, E3. reflexivity. }
    destruct (isOp u) eqn:EO.
    { injection H as <- <- <- <-. destruct (markOp_keeps c (normalOp u)) as [_ [M2 [M3 M4]]]. eapply runs_word; eauto; [now apply ops_par|discriminate]. }
    assert (forall op, seekOp u = Some op -> getToken o f (putToks c (splitFirst u op)) = Ok (c', t, ty, e) -> runs c c' ty e) as HSep.
    { intros op HS HX. destruct (splitFirst_runs u op HS HB) as [A B]. eapply runs_put; eauto. }
    assert (valueKind (c_sub c) <> TkParen) as HV by (unfold valueKind; destruct (sc_opctx (c_sub c)); discriminate).
    pose proof HB as [B1 [B2 [B3 B4]]].
    match type of H with match valueCheck u with VQuoted _ => _ | VNumber => _ | VNot => ?X end = _ => assert (X = Ok (c', t, ty, e) -> runs c c' ty e) as HRest end.
    { clear H. intro H.
      destruct (bytes_eqb u (s2b "true")) eqn:ET; [apply bytes_eqb_eq in ET; injection H as <- <- <- <-; eapply runs_word; eauto; [subst u; reflexivity|discriminate]|].
      destruct (bytes_eqb u (s2b "false")) eqn:EF; [apply bytes_eqb_eq in EF; injection H as <- <- <- <-; eapply runs_word; eauto; [subst u; reflexivity|discriminate]|].
      destruct (funcKey u) as [x|] eqn:EK; [exfalso; exact (call_not_bare u x EK HB)|].
      destruct (hasByte u 40 || hasByte u 41) eqn:EH.
      - destruct (negb (bytes_eqb u [40%N]) && hasPrefix u [40%N]) eqn:E1.
        { apply andb_true_iff in E1 as [_ B]. destruct (head_runs u 40%N B HB) as [X Y]. apply IH in H. eapply runs_put; eauto. rewrite Y. reflexivity. }
        destruct (negb (bytes_eqb u [40%N]) && hasSuffix u [40%N]) eqn:E2.
        { destruct (splitSuffix_runs u 40%N HB) as [X Y]. apply IH in H. eapply runs_put; eauto. rewrite Y. reflexivity. }
        destruct (negb (bytes_eqb u [41%N]) && hasSuffix u [41%N]) eqn:E3.
        { destruct (splitSuffix_runs u 41%N HB) as [X Y]. apply IH in H. eapply runs_put; eauto. rewrite Y. reflexivity. }
        destruct (negb (bytes_eqb u [41%N]) && hasPrefix u [41%N]) eqn:E4.
        { apply andb_true_iff in E4 as [_ B]. destruct (head_runs u 41%N B HB) as [X Y]. destruct (closeParen _) as [c1 e1] eqn:EC. injection H as <- <- <- <-.
          eapply (runs_put c u); eauto; [rewrite Y; reflexivity|]. eapply (close_runs _ (trimPrefix u [41%N] :: skipn (S (c_cur c)) (c_toks c))); [|exact EC].
          unfold putToks. cbn [withToks c_toks c_cur]. assert (length (firstn (c_cur c) (c_toks c)) = c_cur c) as EL by (apply firstn_length_le, Nat.lt_le_incl, nth_error_Some; congruence).
          rewrite <- EL at 1. rewrite skipn_app, skipn_all, Nat.sub_diag. reflexivity. }
        destruct (bytes_eqb u [41%N]) eqn:E5.
        { apply bytes_eqb_eq in E5 as ->. destruct (closeParen c) as [c1 e1] eqn:EC. injection H as <- <- <- <-. eapply close_runs; [now apply skip_cur|exact EC]. }
        destruct (bytes_eqb u [40%N]) eqn:E6.
        { apply bytes_eqb_eq in E6 as ->. destruct (openParen c) as [c1 e1] eqn:EC. injection H as <- <- <- <-. now apply open_runs. }
        destruct (seekOp u) as [op|] eqn:ES; [eapply HSep; eauto|]. injection H as <- <- <- <-. apply runs_err.
      - apply not_has_par in EH. destruct (unfinishedQuote u) as [q|] eqn:EU.
        { exfalso. unfold unfinishedQuote in EU. destruct (hasPrefix u [34%N]) eqn:P1; [apply hasPrefix_app in P1 as [r ->]; apply B1; now left|].
          cbn [andb] in EU. destruct (hasPrefix u [39%N]) eqn:P2; [apply hasPrefix_app in P2 as [r ->]; apply B2; now left|discriminate]. }
        destruct (seekOp u) as [op|] eqn:ES; [eapply HSep; eauto|]. injection H as H. unfold fieldToken in H. destruct (_ || _); [injection H as <- <- <- <-; apply runs_err|].
        rewrite (skip_cur c u HT) in H. destruct (parseField _) as [[p r]|] eqn:EP; [|injection H as <- <- <- <-; apply runs_err].
        apply parseField_one in EP as ->; [|exact B3]. injection H as <- <- <- <-. eapply runs_word; eauto; [|discriminate]. cbn [withField withToks c_cur].
        assert (c_cur c < length (c_toks c)) by (apply nth_error_Some; congruence).
        change (match c_toks c with [] => [] | _ :: l => skipn (c_cur c) l end) with (skipn (S (c_cur c)) (c_toks c)). rewrite skipn_length. lia. }
    destruct (valueCheck u) as [q| |] eqn:EV.
    - exfalso. unfold valueCheck in EV. destruct (quotedBy 34 u) eqn:Q1; [apply B1; now apply quoted_in|]. destruct (quotedBy 39 u) eqn:Q2; [apply B2; now apply quoted_in|].
      destruct (isNum u); discriminate.
    - injection H as <- <- <- <-. eapply runs_word; eauto. apply num_par. unfold valueCheck in EV. destruct (quotedBy 34 u); [discriminate|]. destruct (quotedBy 39 u); [discriminate|]. destruct (isNum u); congruence.
    - auto.
  Qed.

  Lemma finish_never : forall c e c' e', finish c e = Ok (c', e') -> e' <> SNoMore.
  Proof. intros c e c' e' H. unfold finish in H. injection H as _ <-. destruct e; try discriminate. destruct (c_depth c =? 0); discriminate. Qed.
  Lemma parse_never : forall f c c' e, parse o f c = Ok (c', e) -> e <> SNoMore.
  Proof.
    induction f as [|f IH]; intros c c' e H; [discriminate|]. apply parse_inv in H as [c1 [t [ty [e1 [_ H]]]]].
    assert (forall c3, nextR o f c3 c' e -> e <> SNoMore) as HN by (intros c3 [c5 [e5 [_ [[_ X]|[_ X]]]]]; [eapply IH; exact X|eapply finish_never; exact X]).
    destruct H as [[_ H]|[_ [c2 [e2 [_ H]]]]]; [eapply finish_never; exact H|].
    destruct H as [[_ H]|[[_ [c3 [_ H]]]|[_ [b [c3 [e3 [_ H]]]]]]]; [eapply finish_never; exact H|eapply HN; exact H|].
    destruct H as [[_ [_ H]]|[_ [c4 [e4 [_ [[_ H]|[_ H]]]]]]]; [eapply finish_never; exact H|eapply finish_never; exact H|eapply HN; exact H].
  Qed.
  Lemma merge_errs : forall c old c' e, merge c old = Ok (c', e) -> e = SNil \/ e = SOther.
  Proof.
    intros c old c' e H. unfold merge in H. destruct (isUnused old); [injection H as _ <-; auto|]. destruct (_ && _); [injection H as _ <-; auto|].
    destruct (sc_op old) as [a|]; [|discriminate]. destruct (sc_op (c_sub c)) as [b|]; [|discriminate]. destruct (_ || _); [injection H as _ <-; auto|].
    destruct (idx (c_tree c) a) as [na| | |]; cbn [obind] in H; try discriminate. destruct (pn_right na); [injection H as _ <-; auto|].
    destruct (setNode (c_tree c) a _) as [t1| | |]; cbn [obind] in H; try discriminate. destruct (idx t1 b) as [nb| | |]; cbn [obind] in H; try discriminate.
    destruct (pn_parent nb); [injection H as _ <-; auto|]. destruct (setNode t1 b _) as [t2| | |]; cbn [obind] in H; try discriminate.
    destruct (idx t2 a) as [n2| | |]; cbn [obind] in H; try discriminate. injection H as _ <-. auto.
  Qed.
  Lemma advance_runs : forall c c' e, advance c = (c', e) -> good c -> good c' /\ ((e = SNil /\ ahead c' = beyond c) \/ (e = SOneDone /\ beyond c' = beyond c)).
  Proof.
    intros c c' e H HG. unfold advance in H. cbn [withToks c_advOnly c_sub] in H. unfold good, ahead, beyond in *.
    destruct (c_advOnly c); [injection H as <- <-; cbn; auto|]. cbv zeta in H. cbn [sFunc sc_mode sc_opctx sc_one] in H.
    destruct (sc_mode (c_sub c)); [|destruct (sc_opctx (c_sub c))|destruct (sc_one (c_sub c))|]; injection H as <- <-; (split; [exact HG|]);
      first [left; split; reflexivity|right; split; [reflexivity|]; cbn [withSub withToks c_toks c_cur c_depth Nat.sub]; rewrite ?Nat.sub_0_r; reflexivity].
  Qed.
  Lemma check_runs : forall c ty c' e, checkType c ty = (c', e) ->
    e <> SNoMore /\ (e = SNil -> ty <> TkParen) /\ (e = SOneDone -> ty = TkEndParen) /\ (e = SNewCtx \/ e = SOneNewCtx -> ty = TkParen \/ ty = TkField \/ ty = TkFunc) /\
    c_toks c' = c_toks c /\ c_cur c' = c_cur c /\ c_depth c' = c_depth c.
  Proof.
    intros c ty c' e H. unfold checkType in H. cbv zeta in H.
    destruct (sc_mode (c_sub c)), ty, (sc_opctx (c_sub c)), (c_short c); injection H as <- <-; (split; [discriminate|]); (split; [try discriminate; intros; discriminate|]);
      (split; [try discriminate; auto|]); (split; [intros [X|X]; try discriminate X; auto|]); auto.
  Qed.

  Lemma parse_runs : forall f c c' e, parse o f c = Ok (c', e) -> good c -> e = SNil \/ e = SOneDone ->
    good c' /\ beyond c' = ahead c /\ (e = SNil -> ahead c = Some 0).
  Proof.
    induction f as [|f IH]; intros c c' e H HG HE; [discriminate|]. apply parse_inv in H as [c1 [t [ty [e1 [HT H]]]]].
    apply getToken_runs in HT. destruct (HT HG) as [T0 [T1 T2]]. clear HT.
    assert (forall c3, nextR o f c3 c' e -> good c3 -> good c' /\ beyond c' = beyond c3 /\ (e = SNil -> beyond c3 = Some 0)) as HN.
    { intros c3 [c5 [e5 [HA X]]] G3. destruct (advance_runs _ _ _ HA G3) as [G5 A]. destruct X as [[-> X]|[N X]].
      - destruct A as [[_ A]|[A _]]; [|discriminate]. rewrite <- A. now apply IH.
      - destruct A as [[A _]|[-> A]]; [contradiction|]. unfold finish in X. injection X as <- <-. rewrite A. split; [exact G5|]. split; [reflexivity|discriminate]. }
    destruct H as [[N H]|[-> [c2 [e2 [HC H]]]]].
    { unfold finish in H. injection H as <- <-. destruct e1; try (destruct HE; discriminate); try contradiction.
      destruct (T1 eq_refl) as [A [B C]]. destruct (c_depth c1) eqn:ED; cbn [Nat.eqb] in HE; [|destruct HE; discriminate]. auto. }
    destruct (T2 eq_refl) as [G1 [T3 [T4 T5]]]. clear T1 T2. destruct (check_runs _ _ _ _ HC) as [K0 [K1 [K2 [K3 [K4 [K5 K6]]]]]].
    assert (good c2) as G2 by (unfold good in *; rewrite K4; exact G1). assert (ahead c2 = ahead c1 /\ beyond c2 = beyond c1) as [F1 F2] by (unfold ahead, beyond; rewrite K4, K5, K6; auto).
    destruct H as [[N H]|[[-> [c3 [HI H]]]|[HW [b [c3 [e3 [HP H]]]]]]].
    - unfold finish in H. injection H as <- <-. destruct e2; try (destruct HE; discriminate); try contradiction.
      split; [exact G2|]. split; [|discriminate]. rewrite F2. apply T4. rewrite (K2 eq_refl). discriminate.
    - apply insertNode_keeps in HI as [I1 [I2 [I3 _]]]. assert (good c3) as G3 by (unfold good in *; rewrite I1; exact G2).
      assert (beyond c3 = ahead c) as B3 by (rewrite <- (T4 (K1 eq_refl)), <- F2; unfold beyond; rewrite I1, I2, I3; reflexivity). rewrite <- B3. now apply HN.
    - assert (ahead c2 = ahead c) as B2 by (rewrite F1; destruct (K3 HW) as [X|X]; auto).
      destruct H as [[N1 [N2 H]]|[HD [c4 [e4 [HM H]]]]].
      { exfalso. apply parse_never in HP. unfold finish in H. injection H as _ <-. destruct e3; try contradiction; destruct HE; discriminate. }
      destruct (IH _ _ _ HP G2 HD) as [G3 [B3 B4]]. change (ahead (withSub c2 (newSub b))) with (ahead c2) in B3, B4.
      destruct (merge_errs _ _ _ _ HM) as [-> | ->]; [|destruct H as [[_ H]|[H _]]; [unfold finish in H; injection H as _ <-; destruct HE; discriminate|discriminate]].
      destruct H as [[N _]|[_ H]]; [contradiction|]. apply merge_keeps in HM as [M1 [M2 [M3 _]]].
      assert (good c4) as G4 by (unfold good in *; rewrite M1; exact G3). assert (beyond c4 = ahead c) as B5 by (rewrite <- B2, <- B3; unfold beyond; rewrite M1, M2, M3; reflexivity).
      rewrite <- B5. now apply HN.
  Qed.

  (** ** From text to words *)
  Lemma width_par : forall s k, spaceWidth s = S k -> par (firstn (S k) s) = [] .
  Proof.
    intros s k H. unfold spaceWidth in H. destruct s as [|c r]; [discriminate|].
    destruct (existsb (N.eqb c) [9; 10; 11; 12; 13; 32]%N) eqn:E1.
    { injection H as <-. apply existsb_exists in E1 as [x [HI HE]]. apply N.eqb_eq in HE as ->. cbn [firstn]. repeat (destruct HI as [<-|HI]; [reflexivity|]). destruct HI. }
    destruct r as [|d r2]; [discriminate|]. destruct (N.eqb_spec c 194) as [->|_].
    { destruct (N.eqb_spec d 133) as [->|_]; [injection H as <-; reflexivity|]. destruct (N.eqb_spec d 160) as [->|_]; [injection H as <-; reflexivity|]. discriminate. }
    destruct r2 as [|e r3]; [discriminate|].
    match type of H with (if ?b then _ else _) = _ => destruct b eqn:EB; [|discriminate] end. injection H as <-. cbn [firstn].
    assert ((40 <> c /\ 41 <> c /\ 40 <> d /\ 41 <> d /\ 40 <> e /\ 41 <> e)%N) as HH.
    { rewrite !orb_true_iff, !andb_true_iff, !N.eqb_eq, !orb_true_iff, !andb_true_iff, !N.eqb_eq, !N.leb_le in EB. lia. }
    apply par_none; intros [K|[K|[K|[]]]]; lia.
  Qed.
  Lemma fieldsFrom_par : forall s skip cur, par (firstn skip s) = [] -> skip = 0 \/ cur = [] -> par (concat (fieldsFrom skip cur s)) = par (cur ++ s) /\
    (forall w, In w (fieldsFrom skip cur s) -> sub w (cur ++ s)).
  Proof.
    induction s as [|c s IH]; intros skip cur HP HC; cbn [fieldsFrom].
    - rewrite app_nil_r. destruct cur as [|x cur]; [split; [reflexivity|intros w []]|]. cbn [concat]. rewrite app_nil_r. split; [reflexivity|]. intros w [<-|[]]. apply sub_refl.
    - destruct skip as [|k].
      + destruct (spaceWidth (c :: s)) as [|k] eqn:EW.
        * destruct (IH 0 (cur ++ [c]) eq_refl (or_introl eq_refl)) as [A B]. rewrite <- app_assoc in A, B. auto.
        * apply width_par in EW. cbn [firstn] in EW. assert (par [c] = [] /\ par (firstn k s) = []) as [C1 C2] by (change (c :: firstn k s) with ([c] ++ firstn k s) in EW; rewrite par_app in EW; now apply app_eq_nil).
          destruct (IH k [] C2 (or_intror eq_refl)) as [A B]. cbn [app] in A, B. assert (par (c :: s) = par s) as EC by (change (c :: s) with ([c] ++ s); rewrite par_app, C1; reflexivity).
          assert (forall w pre, In w (fieldsFrom k [] s) -> sub w (pre ++ c :: s)) as BB.
          { intros w pre HI. destruct (B w HI) as [x [z E]]. exists (pre ++ c :: x), z. rewrite E, <- app_assoc. reflexivity. }
          destruct cur as [|y cur].
          -- split; [rewrite A; symmetry; exact EC|]. intros w HI. exact (BB w [] HI).
          -- split; [cbn [concat]; rewrite !par_app, A, EC; reflexivity|]. intros w [<-|HI]; [exists [], (c :: s); reflexivity|now apply BB].
      + destruct HC as [HC| ->]; [discriminate|]. cbn [firstn] in HP. change (c :: firstn k s) with ([c] ++ firstn k s) in HP. rewrite par_app in HP. apply app_eq_nil in HP as [C1 C2].
        destruct (IH k [] C2 (or_intror eq_refl)) as [A B]. cbn [app] in *. split; [rewrite A; change (c :: s) with ([c] ++ s); rewrite par_app, C1; reflexivity|].
        intros w HI. destruct (B w HI) as [x [z E]]. exists (c :: x), z. rewrite E. reflexivity.
  Qed.

  Theorem simple_balanced : forall f text e, bare text -> parseSimple o f text = Ok e -> balanced text.
  Proof.
    intros f text e HB H. unfold parseSimple in H. destruct (parse o f (startCtx (fields text))) as [[c x]| | |] eqn:E; cbn [obind] in H; try discriminate.
    destruct x; try discriminate. destruct (fieldsFrom_par text 0 [] eq_refl (or_introl eq_refl)) as [A B]. cbn [app] in A, B.
    apply parse_runs in E as [_ [_ E]]; [|unfold good; cbn [startCtx c_toks]; apply Forall_forall; intros w HI; eapply sub_bare; [|exact HB]; now apply B|now left].
    specialize (E eq_refl). unfold ahead in E. cbn [startCtx c_toks c_cur c_depth skipn] in E. unfold balanced. rewrite <- E. apply open_same. symmetry. exact A.
  Qed.
End Runs.
