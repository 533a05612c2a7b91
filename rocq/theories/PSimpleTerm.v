(** The simple parser comes to an end on every text that lacks quotes, opening or closing
    parentheses. *)
From Coq Require Import String.
From Verif Require Import Base MTokenizer MLit MFastVal MMath MBinTree SEvents MExpr MExprJson MText MSimple PSimpleFuel.
From Coq Require Import List NArith ZArith Arith Lia Bool.
Import ListNotations.
Open Scope nat_scope.

(** ** Words *)

(** What is left to read: every word counts, longer ones for more. *)
Definition wt (w : bytes) : nat := match w with [] => 1 | _ => 3 * length w - 2 end.
Definition wts (l : list bytes) : nat := list_sum (map wt l).
Definition weight (c : ctx) : nat := wts (skipn (c_cur c) (c_toks c)).

Lemma wt_pos : forall w, 1 <= wt w.
Proof. intros [|a w]; cbn [wt length]; lia. Qed.
Lemma wt_le : forall w, wt w <= 3 * length w + 1.
Proof. intros [|a w]; cbn [wt length]; lia. Qed.
Lemma wt_len : forall w, length w <= wt w.
Proof. intros [|a w]; cbn [wt length]; lia. Qed.
Lemma wt_ne : forall w, w <> [] -> wt w = 3 * length w - 2.
Proof. intros [|a w] H; [contradiction|reflexivity]. Qed.
Lemma wts_cons : forall w l, wts (w :: l) = wt w + wts l.
Proof. reflexivity. Qed.
Lemma wts_app : forall a b, wts (a ++ b) = wts a + wts b.
Proof. intros a b. unfold wts. rewrite map_app, list_sum_app. reflexivity. Qed.
Lemma wts_len : forall l, length l <= wts l.
Proof. induction l as [|w l IH]; [cbn; lia|]. rewrite wts_cons. pose proof (wt_pos w). cbn [length]. lia. Qed.
Lemma wts_repeat : forall n (b : N), wts (repeat [b] n) = n.
Proof. induction n as [|n IH]; intro b; [reflexivity|]. cbn [repeat]. rewrite wts_cons, IH. reflexivity. Qed.
Lemma skipn_cons : forall {A : Type} (l : list A) i x, nth_error l i = Some x -> skipn i l = x :: skipn (S i) l.
Proof. induction l as [|y l IH]; intros [|i] x H; cbn in *; try discriminate; [injection H as ->; reflexivity|]. now apply IH. Qed.
Lemma wts_skipn : forall k l, wts (skipn k l) <= wts l.
Proof. induction k as [|k IH]; intros l; [reflexivity|]. destruct l as [|w l]; [reflexivity|]. cbn [skipn]. rewrite wts_cons. specialize (IH l). lia. Qed.
Lemma weight_cur : forall c t, nth_error (c_toks c) (c_cur c) = Some t -> weight c = wt t + wts (skipn (S (c_cur c)) (c_toks c)).
Proof. intros c t H. unfold weight. rewrite (skipn_cons _ _ _ H). apply wts_cons. Qed.
Lemma weight_put : forall c t l, nth_error (c_toks c) (c_cur c) = Some t -> weight (putToks c l) + wt t = weight c + wts l.
Proof.
  intros c t l H. rewrite (weight_cur _ _ H). unfold weight, putToks. cbn [withToks c_toks c_cur].
  assert (c_cur c < length (c_toks c)) as HL by (apply nth_error_Some; congruence).
  assert (length (firstn (c_cur c) (c_toks c)) = c_cur c) as HF by (rewrite firstn_length; lia).
  rewrite skipn_app, HF, Nat.sub_diag. rewrite skipn_all2 by lia. cbn [skipn app]. rewrite wts_app. lia.
Qed.
Lemma skipn_plus : forall {A : Type} a b (l : list A), skipn (a + b) l = skipn a (skipn b l).
Proof.
  intros A a b. revert a. induction b as [|b IH]; intros a l; [rewrite Nat.add_0_r; reflexivity|]. destruct l as [|x l]; [rewrite !skipn_nil; reflexivity|].
  rewrite Nat.add_succ_r. cbn [skipn]. apply IH.
Qed.
Lemma weight_fwd : forall c k, c_cur c <= k -> wts (skipn k (c_toks c)) <= weight c.
Proof.
  intros c k H. unfold weight. replace k with ((k - c_cur c) + c_cur c) by lia.
  rewrite skipn_plus. apply wts_skipn.
Qed.

(** ** Splitting a word *)
Definition lacks (b : N) (l : list bytes) : Prop := Forall (fun w => ~ In b w) l.

Lemma hasPrefix_app : forall p s, hasPrefix s p = true -> exists r, s = p ++ r.
Proof.
  induction p as [|a p IH]; intros s H; [exists s; reflexivity|]. destruct s as [|b s]; [discriminate|]. cbn [hasPrefix] in H.
  apply andb_true_iff in H as [H1 H2]. apply N.eqb_eq in H1 as ->. destruct (IH _ H2) as [r ->]. exists r. reflexivity.
Qed.
Lemma hasPrefix_self : forall p r, hasPrefix (p ++ r) p = true.
Proof. induction p as [|a p IH]; intro r; [destruct r; reflexivity|]. cbn [hasPrefix app]. rewrite N.eqb_refl. apply IH. Qed.
Lemma hasPrefix_skipn : forall s d, hasPrefix s d = true -> s = d ++ skipn (length d) s.
Proof. intros s d H. apply hasPrefix_app in H as [r ->]. rewrite skipn_app, Nat.sub_diag, skipn_all. reflexivity. Qed.
Lemma cut_sound : forall s d a b, cut s d = Some (a, b) -> s = a ++ d ++ b.
Proof.
  induction s as [|c s IH]; intros d a b H; cbn [cut] in H.
  - destruct (hasPrefix [] d) eqn:E; [|discriminate]. injection H as <- <-. now apply hasPrefix_skipn.
  - destruct (hasPrefix (c :: s) d) eqn:E.
    + injection H as <- <-. now apply hasPrefix_skipn.
    + destruct (cut s d) as [[x y]|] eqn:E2; [|discriminate]. injection H as <- <-. cbn [app]. f_equal. now apply IH.
Qed.
Lemma cut_total : forall a d b, cut (a ++ d ++ b) d <> None.
Proof.
  induction a as [|c a IH]; intros d b H; cbn [app] in H.
  - destruct (d ++ b) as [|x l] eqn:E; cbn [cut] in H; rewrite <- E, hasPrefix_self in H; discriminate.
  - cbn [cut] in H. destruct (hasPrefix _ d); [discriminate|]. destruct (cut (a ++ d ++ b) d) as [[]|] eqn:E; [discriminate|]. now apply (IH d b).
Qed.
Lemma seekAt_sound : forall k n found s op, (found = true -> isOp (firstn (n - 1) s) = true) -> seekAt k n found s = Some op -> isOp op = true /\ exists m, op = firstn m s.
Proof.
  induction k as [|k IH]; intros n found s op HF H; cbn [seekAt] in H.
  - destruct (isOp (firstn n s)) eqn:E; [injection H as <-; eauto|]. destruct found; [|discriminate]. injection H as <-. eauto.
  - destruct (isOp (firstn n s)) eqn:E.
    + eapply IH; [|exact H]. intros _. replace (S n - 1) with n by lia. exact E.
    + destruct found; [injection H as <-; eauto|]. eapply IH; [|exact H]. discriminate.
Qed.
Lemma seekOp_sound : forall s op, seekOp s = Some op -> isOp op = true /\ exists a b, s = a ++ op ++ b.
Proof.
  induction s as [|c s IH]; intros op H; cbn [seekOp] in H; [discriminate|]. destruct (seekAt (length (c :: s)) 0 false (c :: s)) as [x|] eqn:E.
  - injection H as ->. apply seekAt_sound in E as [E [m ->]]; [|discriminate]. split; auto. exists [], (skipn m (c :: s)). symmetry. apply firstn_skipn.
  - destruct (IH _ H) as [H1 [a [b ->]]]. split; auto. exists (c :: a), b. reflexivity.
Qed.
Lemma isOp_ne : forall op, isOp op = true -> op <> [].
Proof. intros op H ->. vm_compute in H. discriminate. Qed.

Lemma hasByte_in : forall s c, hasByte s c = true <-> In c s.
Proof.
  intros s c. unfold hasByte. rewrite existsb_exists. split; [intros [x [H E]]; apply N.eqb_eq in E as ->; exact H|]. intro H. exists c. split; [exact H|apply N.eqb_refl].
Qed.
Lemma dropSet_suffix : forall s d, exists p, s = p ++ dropSet s d.
Proof.
  induction s as [|c s IH]; intro d; cbn [dropSet]; [exists []; reflexivity|]. destruct (hasByte d c); [|exists []; reflexivity].
  destruct (IH d) as [p E]. exists (c :: p). cbn [app]. f_equal. exact E.
Qed.
Lemma dropSet_all : forall l r d, (forall c, In c l -> In c d) -> dropSet (l ++ r) d = dropSet r d.
Proof.
  induction l as [|c l IH]; intros r d H; [reflexivity|]. cbn [app dropSet]. rewrite (proj2 (hasByte_in d c)) by (apply H; now left). apply IH. intros; apply H; now right.
Qed.
Lemma dropSet_app : forall a d, dropSet (a ++ d) d = [] \/ dropSet (a ++ d) d = dropSet a d ++ d.
Proof.
  induction a as [|c a IH]; intro d; [left; cbn [app]; rewrite <- (app_nil_r d) at 1; rewrite dropSet_all by auto; reflexivity|].
  cbn [app dropSet]. destruct (hasByte d c); [apply IH|right; reflexivity].
Qed.
Lemma dropSet_len : forall s d, length (dropSet s d) <= length s.
Proof. intros s d. destruct (dropSet_suffix s d) as [p E]. rewrite E at 2. rewrite app_length. lia. Qed.
Lemma trimSet_len : forall a d, length (trimSet (a ++ d) d) <= length a.
Proof.
  intros a d. unfold trimSet. rewrite rev_length. destruct (dropSet_app a d) as [-> | ->]; [cbn; lia|].
  rewrite rev_app_distr, dropSet_all by (intros c; now rewrite <- in_rev). etransitivity; [apply dropSet_len|]. rewrite rev_length. apply dropSet_len.
Qed.
Lemma dropSet_in : forall s d x, In x (dropSet s d) -> In x s.
Proof. intros s d x H. destruct (dropSet_suffix s d) as [p E]. rewrite E. apply in_or_app. now right. Qed.
Lemma trimSet_in : forall s d x, In x (trimSet s d) -> In x s.
Proof. intros s d x H. unfold trimSet in H. apply in_rev, dropSet_in, in_rev, dropSet_in in H. exact H. Qed.

Lemma splitFirst_wt : forall t op, seekOp t = Some op -> isOp t = false -> wts (splitFirst t op) < wt t.
Proof.
  intros t op H HT. destruct (seekOp_sound _ _ H) as [HO [a0 [b0 E0]]]. pose proof (isOp_ne _ HO) as NE. unfold splitFirst.
  destruct (bytes_eqb t op) eqn:EB; [apply bytes_eqb_eq in EB as ->; congruence|]. destruct (cut t op) as [[a b]|] eqn:E; [|rewrite E0 in E; now apply cut_total in E].
  apply cut_sound in E. assert (length t = length a + length op + length b) as HL by (rewrite E, !app_length; lia).
  assert (1 <= length op) as H1 by (destruct op; [contradiction|cbn; lia]).
  assert (t <> []) as HN by (intros ->; cbn in HL; lia). rewrite (wt_ne t) by exact HN. pose proof (wt_ne op NE) as W1.
  destruct a as [|x a].
  - rewrite !wts_cons. cbn [wts map list_sum fold_right] in *. assert (b <> []) as HB by (intros ->; rewrite app_nil_r in E; cbn [app] in E; subst; congruence).
    rewrite (wt_ne b HB), W1. change (wts []) with 0. cbn [length] in HL. assert (1 <= length b) by (destruct b; [contradiction|cbn; lia]). lia.
  - destruct b as [|y b].
    + rewrite !wts_cons, W1. change (wts []) with 0. cbn [wt length] in *. lia.
    + rewrite !wts_cons, W1. change (wts []) with 0. pose proof (trimSet_len (x :: a) op) as HX. cbn [length] in *.
      destruct (trimSet ((x :: a) ++ op) op) as [|z l]; cbn [wt length] in *; lia.
Qed.
Lemma splitFirst_in : forall t op b, seekOp t = Some op -> ~ In b t -> lacks b (splitFirst t op).
Proof.
  intros t op b H HB. destruct (seekOp_sound _ _ H) as [HO [a0 [b0 E0]]]. unfold splitFirst.
  assert (~ In b op) as HB2 by (intro X; apply HB; rewrite E0; apply in_or_app; right; apply in_or_app; now left).
  destruct (bytes_eqb t op); [repeat constructor; auto|]. destruct (cut t op) as [[x y]|] eqn:E; [|repeat constructor; auto].
  apply cut_sound in E. assert (~ In b x /\ ~ In b y) as [HX HY] by (split; intro X; apply HB; rewrite E; rewrite !in_app_iff; auto).
  assert (~ In b (x ++ op)) as HXO by (rewrite in_app_iff; tauto).
  destruct x as [|p x]; [apply Forall_cons; auto|]. destruct y as [|q y]; [repeat (apply Forall_cons; auto)|].
  apply Forall_cons; [intro X; apply HXO; eapply trimSet_in; exact X|]. repeat (apply Forall_cons; auto).
Qed.

Lemma countSuffix_split : forall r p, exists u, r = repeat p (countSuffix r p) ++ u /\ (match u with c :: _ => c <> p | [] => True end).
Proof.
  induction r as [|c r IH]; intro p; cbn [countSuffix]; [exists []; auto|]. destruct (N.eqb c p) eqn:E.
  - apply N.eqb_eq in E as ->. destruct (IH p) as [u [E HU]]. exists u. cbn [repeat app]. split; [f_equal; exact E|exact HU].
  - exists (c :: r). split; [reflexivity|]. now apply N.eqb_neq.
Qed.
Lemma rev_repeat : forall {A : Type} n (x : A), rev (repeat x n) = repeat x n.
Proof.
  intros A n x. induction n as [|n IH]; [reflexivity|]. cbn [repeat rev]. rewrite IH. clear IH. induction n as [|n IH]; [reflexivity|]. cbn [repeat app]. f_equal. exact IH.
Qed.
Lemma splitSuffix_spec : forall t p, exists u n, splitSuffix t p = u :: repeat [p] n /\ t = u ++ repeat p n /\ (hasSuffix t [p] = true -> 1 <= n).
Proof.
  intros t p. unfold splitSuffix. destruct (countSuffix_split (rev t) p) as [v [E HV]]. set (n := countSuffix (rev t) p) in *.
  assert (t = rev v ++ repeat p n) as ET by (rewrite <- (rev_involutive t), E, rev_app_distr, rev_repeat; reflexivity).
  exists (rev v), n. split.
  - f_equal. rewrite ET at 1 2. rewrite app_length, repeat_length, Nat.add_sub, firstn_app, Nat.sub_diag, firstn_all. cbn [firstn]. apply app_nil_r.
  - split; [exact ET|]. unfold hasSuffix. rewrite E. destruct n as [|n]; [|lia]. cbn [repeat app rev]. destruct v as [|c v]; [discriminate|].
    cbn [hasPrefix]. intro H. apply andb_true_iff in H as [H _]. apply N.eqb_eq in H. congruence.
Qed.

Lemma in_repeat : forall (b p : N) n, In b (repeat p n) -> b = p.
Proof. intros b p n H. now apply repeat_spec in H. Qed.
Lemma splitSuffix_wt : forall t p, hasSuffix t [p] = true -> bytes_eqb t [p] = false -> wts (splitSuffix t p) < wt t.
Proof.
  intros t p H HN. destruct (splitSuffix_spec t p) as [u [n [-> [-> Hn]]]]. specialize (Hn H). rewrite wts_cons, wts_repeat.
  destruct u as [|x u].
  - cbn [app]. destruct n as [|[|n]]; [lia| |].
    + cbn [repeat app] in HN. assert (bytes_eqb [p] [p] = true) by now apply bytes_eqb_eq. congruence.
    + cbn [repeat wt length]. rewrite repeat_length. lia.
  - cbn [app wt length]. rewrite app_length, repeat_length. lia.
Qed.
Lemma splitSuffix_in : forall t p b, ~ In b t -> lacks b (splitSuffix t p).
Proof.
  intros t p b H. destruct (splitSuffix_spec t p) as [u [n [-> [-> Hn]]]]. apply Forall_cons; [intro X; apply H, in_or_app; now left|].
  apply Forall_forall. intros w HW X. apply H, in_or_app. right. destruct n as [|n]; [destruct HW|]. apply repeat_spec in HW as ->. destruct X as [->|[]]. now left.
Qed.

(** ** What the token reader and the parser leave alone *)

(** The texts considered: without quotes, or without one of the parentheses. *)
Definition safe (c : ctx) : Prop :=
  (lacks 34 (c_toks c) /\ lacks 39 (c_toks c)) \/ (lacks 40 (c_toks c) /\ c_depth c = 0) \/ lacks 41 (c_toks c).
Definition shrinks (c c' : ctx) : Prop := safe c -> safe c' /\ weight c' <= weight c.

(** The arguments of a call that are calls stand behind it. *)
Definition callsUp (h : list (list farg)) : Prop := forall i l n, nth_error h i = Some l -> In (FIdx n) l -> i < n < length h.
Definition helperOk (f : option fhelper) : Prop := match f with Some h => callsUp (h_args h) | None => True end.
Definition funcsOk (l : list (nat * fhelper)) : Prop := Forall (fun p => callsUp (h_args (snd p))) l.

Record same (c c' : ctx) : Prop := {
  same_tree : c_tree c' = c_tree c;
  same_sub : sc_sub (c_sub c') = sc_sub (c_sub c);
  same_op : sc_op (c_sub c') = sc_op (c_sub c);
  same_funcs : c_funcs c' = c_funcs c;
  same_help : helperOk (sc_func (c_sub c)) -> helperOk (sc_func (c_sub c')) }.
Lemma same_refl : forall c, same c c.
Proof. intro c. split; auto. Qed.
Lemma same_trans : forall a b c, same a b -> same b c -> same a c.
Proof. intros a b c [] []. split; auto; congruence. Qed.
Lemma shrinks_refl : forall c, shrinks c c.
Proof. intros c H. auto. Qed.
Lemma shrinks_trans : forall a b c, shrinks a b -> shrinks b c -> shrinks a c.
Proof. intros a b c H1 H2 H. destruct (H1 H) as [H3 H4]. destruct (H2 H3). split; [auto|lia]. Qed.

Lemma lacks_put : forall b c t l, nth_error (c_toks c) (c_cur c) = Some t -> (~ In b t -> lacks b l) -> lacks b (c_toks c) -> lacks b (c_toks (putToks c l)).
Proof.
  intros b c t l HT HL H. assert (~ In b t) as HB by (unfold lacks in H; rewrite Forall_forall in H; apply H; eapply nth_error_In; exact HT).
  unfold putToks. cbn [withToks c_toks]. unfold lacks in *. apply Forall_app. split; [|apply Forall_app; split; [now apply HL|]].
  - rewrite Forall_forall in *. intros w HW. apply H. rewrite <- (firstn_skipn (c_cur c)). apply in_or_app. now left.
  - rewrite Forall_forall in *. intros w HW. apply H. rewrite <- (firstn_skipn (S (c_cur c))). apply in_or_app. now right.
Qed.
Lemma shrinks_put : forall c t l, nth_error (c_toks c) (c_cur c) = Some t -> wts l <= wt t -> (forall b, ~ In b t -> lacks b l) -> shrinks c (putToks c l).
Proof.
  intros c t l HT HW HL H. split; [|pose proof (weight_put c t l HT); lia].
  destruct H as [[H1 H2]|[[H1 H2]|H1]]; [left; split|right; left; split; [|exact H2]|right; right]; eapply lacks_put; eauto.
Qed.
Lemma shrinks_cur : forall c c', c_toks c' = c_toks c -> c_depth c' <= c_depth c -> c_cur c <= c_cur c' -> shrinks c c'.
Proof.
  intros c c' ET ED EC H. split.
  - unfold safe in *. rewrite ET. destruct H as [H|[[H1 H2]|H]]; auto. right. left. split; auto. lia.
  - unfold weight at 1. rewrite ET. now apply weight_fwd.
Qed.
Lemma trimPrefix_one : forall t p, bytes_eqb t [p] = false -> hasPrefix t [p] = true -> exists u, trimPrefix t [p] = u /\ t = p :: u /\ u <> [].
Proof.
  intros t p HN H. unfold trimPrefix. rewrite H. apply hasPrefix_app in H as [r ->]. exists r. cbn [app length skipn]. repeat split; auto. intros ->.
  assert (bytes_eqb [p] [p] = true) by now apply bytes_eqb_eq. cbn [app] in HN. congruence.
Qed.
Lemma head_wt : forall t p, bytes_eqb t [p] = false -> hasPrefix t [p] = true -> wts [[p]; trimPrefix t [p]] < wt t.
Proof.
  intros t p HN H. destruct (trimPrefix_one t p HN H) as [u [-> [-> HU]]]. rewrite !wts_cons. change (wts []) with 0. rewrite (wt_ne u HU). cbn [wt length].
  assert (1 <= length u) by (destruct u; [contradiction|cbn; lia]). lia.
Qed.
Lemma head_in : forall t p b, bytes_eqb t [p] = false -> hasPrefix t [p] = true -> ~ In b t -> lacks b [[p]; trimPrefix t [p]].
Proof.
  intros t p b HN H HB. destruct (trimPrefix_one t p HN H) as [u [-> [-> HU]]]. apply Forall_cons; [intros [->|[]]; apply HB; now left|].
  apply Forall_cons; [intro X; apply HB; now right|constructor].
Qed.
Lemma fieldWords_rest : forall toks s p r, fieldWords s toks = Some (p, r) -> exists u, toks = u ++ r /\ u <> [].
Proof.
  induction toks as [|t toks IH]; intros s p r H; cbn [fieldWords] in H; [discriminate|]. destruct (fieldLoop _ _ _ _) as [s'|]; [|discriminate]. destruct (f_mode s').
  - injection H as <- <-. exists [t]. split; [reflexivity|discriminate].
  - apply IH in H as [u [-> HU]]. exists (t :: u). split; [reflexivity|discriminate].
  - discriminate.
Qed.
Lemma parseField_rest : forall toks p r, parseField toks = Some (p, r) -> exists u, toks = u ++ r /\ u <> [].
Proof. intros [|[|a t] toks] p r H; unfold parseField in H; [|discriminate|]; eapply fieldWords_rest; exact H. Qed.

(** ** Calls *)
Lemma callsUp_push : forall h i a, callsUp (h_args h) -> (forall n, a = FIdx n -> i < n < length (h_args h)) ->
  callsUp (h_args (hPush h i a)) /\ length (h_args (hPush h i a)) = length (h_args h).
Proof.
  intros h i a H HA. unfold hPush. cbn [h_args]. rewrite upd_length. split; [|reflexivity]. intros j l n HJ HI. rewrite upd_length.
  destruct (Nat.eq_dec i j) as [<- | NE].
  - assert (i < length (h_args h)) as Hi by (rewrite <- (upd_length _ (h_args h) i (nth i (h_args h) [] ++ [a])); apply nth_error_Some; congruence).
    rewrite nth_error_upd_same in HJ by exact Hi. injection HJ as <-. apply in_app_or in HI as [HI|[HI|[]]]; [|now apply HA].
    eapply H; [|exact HI]. now apply nth_error_nth'.
  - rewrite nth_error_upd_other in HJ by exact NE. eapply H; eauto.
Qed.
Lemma callsUp_new : forall h, callsUp h -> callsUp (h ++ [[]]).
Proof.
  intros h H i l n HI HN. rewrite app_length. destruct (Nat.lt_ge_cases i (length h)) as [Hi|Hi].
  - rewrite nth_error_app1 in HI by exact Hi. specialize (H _ _ _ HI HN). lia.
  - rewrite nth_error_app2 in HI by exact Hi. destruct (i - length h) as [|k]; cbn in HI; [injection HI as <-; destruct HN|]. destruct k; discriminate.
Qed.
Section Calls.
  Variable o : oracles.
  Lemma resolveArgs_up : forall r, (forall h t k h' e, r h t k = Some (h', e) -> callsUp (h_args h) -> h_lvl h < length (h_args h) -> callsUp (h_args h') /\ length (h_args h) <= length (h_args h')) ->
    forall k key first fx l h h' e, resolveArgs o r k key first fx l h = Some (h', e) -> callsUp (h_args h) -> fx < length (h_args h) ->
    callsUp (h_args h') /\ length (h_args h) <= length (h_args h').
  Proof.
    intros r HR. induction k as [|k IH]; intros key first fx l h h' e H HU HF; [discriminate|]. cbn [resolveArgs] in H.
    destruct l as [|s l]; [injection H as <- <-; auto|].
    assert (forall s0, callsUp (h_args (hPush h fx (FStr s0))) /\ length (h_args (hPush h fx (FStr s0))) = length (h_args h)) as HS by (intro s0; apply callsUp_push; [auto|discriminate]).
    destruct (funcKey s) as [[[key' ?] ?]|].
    - cbv zeta in H. destruct (r _ first key') as [[h1 e1]|] eqn:E; [|discriminate]. apply HR in E as [E1 E2]; [|cbn [h_args]; now apply callsUp_new|cbn [h_args h_lvl]; rewrite app_length; cbn [length]; lia].
      cbn [h_args] in E2. rewrite app_length in E2. cbn [length] in E2.
      assert (forall n, FIdx (length (h_args h)) = FIdx n -> fx < n < length (h_args h1)) as HX by (intros n X; injection X as <-; lia).
      destruct (callsUp_push h1 fx _ E1 HX) as [P1 P2]. apply IH in H as [H1 H2]; auto; [split; auto; lia|lia].
    - destruct (valueCheck s) as [q| |].
      + cbv zeta in H. set (v := trimSuffix (trimPrefix s [q]) [q]) in *. destruct (HS v) as [P1 P2]. destruct (_ && _); [injection H as <- <-; split; auto; lia|].
        apply IH in H as [H1 H2]; auto; [split; auto; lia|lia].
      + destruct (HS s) as [P1 P2]. apply IH in H as [H1 H2]; auto; [split; auto; lia|lia].
      + destruct (parseField (s :: l)) as [[p r']|]; [|injection H as <- <-; auto].
        destruct (callsUp_push h fx (FPath p) HU) as [P1 P2]; [discriminate|]. apply IH in H as [H1 H2]; auto; [split; auto; lia|lia].
  Qed.
  Lemma resolve_up : forall f h t k h' e, resolve o f h t k = Some (h', e) -> callsUp (h_args h) -> h_lvl h < length (h_args h) ->
    callsUp (h_args h') /\ length (h_args h) <= length (h_args h').
  Proof.
    induction f as [|f IH]; intros h t k h' e H HU HL; [discriminate|]. cbn [resolve] in H. destruct (find _ builtins) as [[[? a] ?]|]; [|injection H as <- <-; auto].
    cbv zeta in H. destruct (callsUp_push h (h_lvl h) (FStr k) HU) as [P1 P2]; [discriminate|].
    apply resolveArgs_up in H as [H1 H2]; auto; [split; auto; lia|lia].
  Qed.
  Lemma resolveArgs_ends : forall r first key fx, (forall h k, exists x, r h first k = Some x) -> forall k l h, length l < k -> exists x, resolveArgs o r k key first fx l h = Some x.
  Proof.
    intros r first key fx HR. induction k as [|k IH]; intros l h HL; [lia|]. cbn [resolveArgs]. destruct l as [|s l]; [eauto|]. cbn [length] in HL.
    destruct (funcKey s) as [[[key' ?] ?]|].
    - cbv zeta. destruct (HR {| h_args := h_args h ++ [[]]; h_lvl := length (h_args h) |} key') as [[h1 e1] ->]. apply IH. lia.
    - destruct (valueCheck s) as [q| |]; [cbv zeta; destruct (_ && _); [eauto|]; apply IH; lia|apply IH; lia|].
      destruct (parseField (s :: l)) as [[p r']|] eqn:E; [|eauto]. apply parseField_rest in E as [u [E HU]]. apply IH.
      assert (length (s :: l) = length u + length r') as EL by (rewrite E, app_length; reflexivity). destruct u; [contradiction|]. cbn [length] in EL. lia.
  Qed.
  Lemma lastComma_len : forall s b x y, lastComma b s = Some (x, y) -> length x <= length b + length s.
  Proof.
    induction s as [|c s IH]; intros b x y H; cbn [lastComma] in H; [discriminate|]. destruct (lastComma (b ++ [c]) s) as [[p q]|] eqn:E.
    - injection H as -> ->. apply IH in E. rewrite app_length in E. cbn [length] in *. lia.
    - destruct (N.eqb c 44); [|discriminate]. destruct b as [|z b]; [discriminate|]. destruct s as [|w s]; [discriminate|]. injection H as <- <-. cbn [length]. lia.
  Qed.
  Lemma callArgs_len : forall k a t l, callArgs k a t = Some l -> t <> [] /\ length (hd [] l) < length t.
  Proof.
    intros k a t l H. unfold callArgs in H. destruct (_ && _ && _) eqn:E; [|discriminate]. apply andb_true_iff in E as [_ E]. apply Nat.leb_le in E.
    split; [intros ->; cbn in E; lia|]. cbv zeta in H. set (body := firstn (length t - length k - 2) (skipn (S (length k)) t)) in *.
    assert (length body <= length t - length k - 2) as HB by apply firstn_le_length. destruct a.
    - destruct body; [|discriminate]. injection H as <-. cbn [hd length]. lia.
    - destruct body eqn:EB; [discriminate|]. injection H as <-. cbn [hd]. lia.
    - destruct (lastComma [] body) as [[x y]|] eqn:EL; [|discriminate]. injection H as <-. cbn [hd]. apply lastComma_len in EL. cbn [length] in EL. lia.
  Qed.
  (** An argument is shorter than the call. *)
  Lemma resolve_ends : forall f t, length t < f -> forall h k, exists x, resolve o f h t k = Some x.
  Proof.
    induction f as [|f IH]; intros t HF h k; [lia|]. cbn [resolve]. destruct (find _ builtins) as [[[? a] ?]|]; [|eauto]. cbv zeta.
    destruct (callArgs k a t) as [l|] eqn:E.
    - apply callArgs_len in E as [_ E]. apply resolveArgs_ends; [|lia]. intros. apply IH. lia.
    - cbn [hd length resolveArgs]. eauto.
  Qed.
  Lemma outFunc_ends : forall h, callsUp (h_args h) -> forall f lvl, length (h_args h) < f + lvl -> outFunc o (S f) h lvl <> OutOfFuel.
  Proof.
    intros h HU. induction f as [|f IH]; intros lvl HF; rewrite outFunc_S.
    - assert (nth_error (h_args h) lvl = None) as -> by (apply nth_error_None; lia). discriminate.
    - destruct (nth_error (h_args h) lvl) as [[|[key|n|p] l]|] eqn:E; try discriminate. cbv zeta. destruct l as [|a l].
      + destruct (bytes_eqb _ _); [discriminate|]. destruct (bytes_eqb _ _); discriminate.
      + assert (forall n, In (FIdx n) (a :: l) -> lvl < n < length (h_args h)) as HL by (intros n HN; eapply HU; [exact E|now right]).
        assert (argsOut o (outFunc o (S f) h) (a :: l) <> OutOfFuel) as HA.
        { clear E. revert HL. generalize (a :: l). clear a l. induction l as [|a l IHl]; intro HL; [discriminate|]. cbn [argsOut]. fold (argsOut o (outFunc o (S f) h)).
          assert (argsOut o (outFunc o (S f) h) l <> OutOfFuel) as H1 by (apply IHl; intros; apply HL; now right). destruct a as [s|n|p].
          - assert (outValue o s <> OutOfFuel) as H2 by (unfold outValue; destruct (isNum s); [|discriminate]; destruct (isIntText s); cbv zeta; [destruct (_ && _)%Z; discriminate|]; destruct (o_parseFloat o s) as [? []]; discriminate).
            destruct (outValue o s); cbn [obind]; try discriminate; [|congruence]. destruct (argsOut o _ l); cbn [obind]; try discriminate; congruence.
          - assert (outFunc o (S f) h n <> OutOfFuel) as H2 by (apply IH; specialize (HL n (or_introl eq_refl)); lia).
            destruct (outFunc o (S f) h n) as [e| | |]; cbn [obind]; try discriminate; [|congruence]. destruct e; try discriminate. destruct (argsOut o _ l); cbn [obind]; try discriminate; congruence.
          - destruct (argsOut o _ l); cbn [obind]; try discriminate; congruence. }
        destruct (argsOut o _ (a :: l)); cbn [obind]; try discriminate; congruence.
  Qed.
End Calls.

(** ** One token *)
Section Token.
  Variable o : oracles.
  Definition quiet (c : ctx) : Prop := c_depth c = 0 \/ lacks 41 (c_toks c).
  Lemma in_suffix : forall t p, hasSuffix t [p] = true -> In p t.
  Proof.
    intros t p H. unfold hasSuffix in H. cbn [rev app] in H. apply hasPrefix_app in H as [r H]. apply in_rev. rewrite H. now left.
  Qed.
  Lemma quiet_split : forall c t, quiet c -> nth_error (c_toks c) (c_cur c) = Some t -> negb (c_depth c =? 0) && hasSuffix t [41%N] = false.
  Proof.
    intros c t [->|H] HT; [reflexivity|]. destruct (hasSuffix t [41%N]) eqn:E; [|apply andb_false_r]. apply in_suffix in E.
    unfold lacks in H. rewrite Forall_forall in H. exfalso. eapply H; [eapply nth_error_In; exact HT|exact E].
  Qed.
  Lemma same_put : forall c l, same c (putToks c l).
  Proof. intros c l. split; auto. Qed.
  Lemma unfinished_keeps : forall f c q out c' t ty e, unfinished f c q out = Ok (c', t, ty, e) ->
    same c c' /\ sc_opctx (c_sub c') = sc_opctx (c_sub c) /\ ty <> TkParen /\ (quiet c -> c_toks c' = c_toks c /\ c_depth c' = c_depth c /\ c_cur c <= c_cur c').
  Proof.
    induction f as [|f IH]; intros c q out c' t ty e H; [discriminate|]. cbn [unfinished] in H.
    assert (forall s, valueKind s <> TkParen) as HV by (intro s; unfold valueKind; destruct (sc_opctx s); discriminate).
    destruct (nth_error (c_toks c) (c_cur c)) as [t0|] eqn:E; [|injection H as <- <- <- <-; repeat split; auto; discriminate]. cbv zeta in H.
    set (c1 := if negb (c_depth c =? 0) && hasSuffix t0 [41%N] then putToks c (splitSuffix t0 41%N) else c) in H.
    assert (same c c1 /\ sc_opctx (c_sub c1) = sc_opctx (c_sub c)) as [S1 S2] by (subst c1; destruct (_ && _); split; auto using same_put, same_refl).
    assert (quiet c -> c1 = c) as HQ by (intro Q; subst c1; rewrite (quiet_split c t0 Q E); reflexivity). clearbody c1.
    destruct (hasSuffix _ [q]).
    - injection H as <- <- <- <-. split; [exact S1|]. split; [exact S2|]. split; [apply HV|]. intro Q. rewrite (HQ Q). auto.
    - apply IH in H as [H1 [H2 [H3 H4]]]. split; [eapply same_trans; [exact S1|]; destruct H1; split; auto|]. split; [cbn in H2; congruence|]. split; [exact H3|].
      intro Q. pose proof (HQ Q) as ->. assert (quiet (withToks c (c_toks c) (S (c_cur c)))) as Q' by exact Q. destruct (H4 Q') as [A [B C]]. cbn in A, B, C. repeat split; auto. lia.
  Qed.
  Lemma unfinished_ends : forall f c q out, quiet c -> length (c_toks c) < f + c_cur c -> unfinished (S f) c q out <> OutOfFuel.
  Proof.
    induction f as [|f IH]; intros c q out Q HF; cbn [unfinished].
    - assert (nth_error (c_toks c) (c_cur c) = None) as -> by (apply nth_error_None; lia). discriminate.
    - destruct (nth_error (c_toks c) (c_cur c)) as [t0|] eqn:E; [|discriminate]. rewrite (quiet_split c t0 Q E). cbv zeta. destruct (hasSuffix _ [q]); [discriminate|].
      apply IH; [exact Q|]. cbn [withToks c_toks c_cur]. lia.
  Qed.

  Lemma advance_adv : forall c, c_advOnly c = true -> advance c = (withAdv (withToks c (c_toks c) (S (c_cur c))) false, SNil).
  Proof. intros c H. unfold advance. cbn [withToks c_advOnly]. rewrite H. reflexivity. Qed.
  Lemma markOp_keeps : forall c t, same c (markOp c t) /\ c_toks (markOp c t) = c_toks c /\ c_cur (markOp c t) = c_cur c /\ c_depth (markOp c t) = c_depth c.
  Proof. intros c t. unfold markOp. cbv zeta. repeat match goal with |- context [if ?b then _ else _] => destruct b end; repeat split; auto. Qed.

  Definition tokenKeeps (c c' : ctx) (ty : ttype) (e : serr) : Prop :=
    same c c' /\ shrinks c c' /\ (ty <> TkOp -> sc_opctx (c_sub c') = sc_opctx (c_sub c)) /\ (ty = TkParen -> e = SNil -> safe c -> weight c' < weight c).
  Lemma tokenKeeps_cur : forall c c' ty e, same c c' -> c_toks c' = c_toks c -> c_depth c' <= c_depth c -> c_cur c <= c_cur c' ->
    (ty <> TkOp -> sc_opctx (c_sub c') = sc_opctx (c_sub c)) -> ty <> TkParen -> tokenKeeps c c' ty e.
  Proof. intros c c' ty e H1 H2 H3 H4 H5 H6. split; [exact H1|]. split; [now apply shrinks_cur|]. split; [exact H5|]. contradiction. Qed.
  Lemma tokenKeeps_put : forall c t l c' ty e, nth_error (c_toks c) (c_cur c) = Some t -> wts l <= wt t -> (forall b, ~ In b t -> lacks b l) ->
    tokenKeeps (putToks c l) c' ty e -> tokenKeeps c c' ty e.
  Proof.
    intros c t l c' ty e HT HW HL [H1 [H2 [H3 H4]]]. pose proof (shrinks_put c t l HT HW HL) as HS.
    split; [eapply same_trans; [apply same_put|exact H1]|]. split; [eapply shrinks_trans; eauto|]. split; [exact H3|].
    intros A B C. destruct (HS C) as [D E]. specialize (H4 A B D). lia.
  Qed.
  Lemma closeParen_keeps : forall c ty e0, ty <> TkParen -> tokenKeeps c (fst (closeParen c)) ty e0.
  Proof.
    intros c ty e0 H. unfold closeParen. destruct (c_depth c) as [|d] eqn:E; cbn [fst]; apply tokenKeeps_cur; auto using same_refl; cbn [withDepth c_depth c_cur]; try lia. split; auto.
  Qed.
  Lemma funcToken_keeps : forall f c t key c' u ty e, funcToken o f c t key = Ok (c', u, ty, e) -> tokenKeeps c c' ty e.
  Proof.
    intros f c t key c' u ty e H. unfold funcToken in H.
    assert (forall h e1, resolve o f {| h_args := [[]]; h_lvl := 0 |} t key = Some (h, e1) -> callsUp (h_args h)) as HR.
    { intros h e1 HR. apply resolve_up in HR as [HR _]; [exact HR| |cbn [h_args h_lvl length]; lia]. cbn [h_args]. intros [|i] l n HI HN; cbn in HI; [injection HI as <-; destruct HN|]. destruct i; discriminate. }
    destruct (sc_mode (c_sub c)); try (injection H as <- <- <- <-; apply tokenKeeps_cur; auto using same_refl; discriminate);
      (destruct (resolve o f _ t key) as [[h e1]|]; [|discriminate]; injection H as <- <- <- <-; apply tokenKeeps_cur; auto; [|discriminate]; split; auto; intros _; cbn; eapply HR; reflexivity).
  Qed.
  Lemma fieldToken_keeps : forall c t c' u ty e, nth_error (c_toks c) (c_cur c) = Some t -> fieldToken c t = (c', u, ty, e) -> tokenKeeps c c' ty e.
  Proof.
    intros c t c' u ty e HT H. unfold fieldToken in H. destruct (_ || _); [injection H as <- <- <- <-; apply tokenKeeps_cur; auto using same_refl; discriminate|].
    destruct (parseField (skipn (c_cur c) (c_toks c))) as [[p r]|] eqn:E; injection H as <- <- <- <-; [|apply tokenKeeps_cur; auto using same_refl; discriminate].
    apply parseField_rest in E as [v [E HV]]. apply tokenKeeps_cur; auto; [split; auto| |discriminate]. cbn [withField withToks c_cur].
    assert (length (skipn (c_cur c) (c_toks c)) = length v + length r) as EL by (rewrite E, app_length; reflexivity). rewrite skipn_length in EL. destruct v; [contradiction|]. cbn [length] in EL. lia.
  Qed.
  Lemma safe_quiet : forall c t q, safe c -> nth_error (c_toks c) (c_cur c) = Some t -> unfinishedQuote t = Some q -> quiet c.
  Proof.
    intros c t q H HT HQ. unfold quiet. destruct H as [[H1 H2]|[[H1 H2]|H1]]; auto. exfalso. unfold lacks in *. rewrite Forall_forall in *. apply nth_error_In in HT.
    specialize (H1 _ HT). specialize (H2 _ HT). unfold unfinishedQuote in HQ. destruct (hasPrefix t [34%N]) eqn:E1.
    - apply hasPrefix_app in E1 as [r ->]. apply H1. now left.
    - cbn [andb] in HQ. destruct (hasPrefix t [39%N]) eqn:E2; [|discriminate]. apply hasPrefix_app in E2 as [r ->]. apply H2. now left.
  Qed.
  Lemma openParen_keeps : forall c c' e, nth_error (c_toks c) (c_cur c) = Some [40%N] -> openParen c = (c', e) -> tokenKeeps c c' TkParen e.
  Proof.
    intros c c' e HT H. unfold openParen in H. rewrite advance_adv in H by reflexivity. injection H as <- <-.
    assert (safe c -> ~ lacks 40 (c_toks c)) as HL.
    { intros _ X. unfold lacks in X. rewrite Forall_forall in X. apply nth_error_In in HT. apply (X _ HT). now left. }
    split; [split; auto|]. assert (forall W, W = weight (withAdv (withToks (withAdv (withDepth c (S (c_depth c))) true) (c_toks c) (S (c_cur c))) false) -> W < weight c) as HW.
    { intros W ->. unfold weight at 1. cbn [withAdv withToks withDepth c_toks c_cur]. rewrite (weight_cur c _ HT). cbn [wt length]. lia. }
    split; [|split; [intros _; reflexivity|intros _ _ _; now apply HW]]. intro S. split; [|specialize (HW _ eq_refl); cbn [withAdv withDepth c_toks c_cur] in *; lia].
    destruct S as [S|[[S1 S2]|S]]; [left; exact S| |right; right; exact S]. exfalso. apply HL; [right; left; auto|exact S1].
  Qed.
  Lemma getToken_keeps : forall f c c' t ty e, getToken o f c = Ok (c', t, ty, e) -> tokenKeeps c c' ty e.
  Proof.
    induction f as [|f IH]; intros c c' t ty e H; [discriminate|]. cbn [getToken] in H. destruct (nth_error (c_toks c) (c_cur c)) as [u|] eqn:HT.
    2:{ injection H as <- <- <- <-. apply tokenKeeps_cur; auto using same_refl; discriminate. }
    cbv zeta in H. destruct (bytes_eqb u (s2b "NOT") || bytes_eqb u (s2b "IS")).
    { destruct (multiSeek _ _ _) as [[i op]|]; injection H as <- <- <- <-; [|apply tokenKeeps_cur; auto using same_refl; discriminate].
      destruct (markOp_keeps (withToks c (c_toks c) (c_cur c + i)) op) as [M1 [M2 [M3 M4]]]. apply tokenKeeps_cur; try discriminate.
      - destruct M1. split; auto.
      - rewrite M2. reflexivity.
      - rewrite M4. reflexivity.
      - rewrite M3. cbn [withToks c_cur]. lia.
      - contradiction. }
    destruct (isOp u) eqn:EO.
    { injection H as <- <- <- <-. destruct (markOp_keeps c (normalOp u)) as [M1 [M2 [M3 M4]]]. apply tokenKeeps_cur; auto; try discriminate; [rewrite M4; reflexivity|rewrite M3; reflexivity|contradiction]. }
    assert (forall op, seekOp u = Some op -> getToken o f (putToks c (splitFirst u op)) = Ok (c', t, ty, e) -> tokenKeeps c c' ty e) as HSep.
    { intros op HS HG. eapply tokenKeeps_put; [exact HT| | |apply IH in HG; exact HG]; [apply Nat.lt_le_incl, splitFirst_wt; auto|intros b HB; now apply splitFirst_in]. }
    assert (forall k, valueKind (c_sub c) = k -> k <> TkOp /\ k <> TkParen) as HV by (intros k <-; unfold valueKind; destruct (sc_opctx (c_sub c)); split; discriminate).
    specialize (HV _ eq_refl) as [HV1 HV2].
    assert (forall q, valueToken o c u q = (c', t, ty, e) -> tokenKeeps c c' ty e) as HVal.
    { intros q HG. unfold valueToken in HG. cbv zeta in HG. destruct (valueKind (c_sub c)) eqn:EK; try congruence; try (destruct (o_regexCompiles o _); [|destruct (tokenIsPcre _)]);
        injection HG as <- <- <- <-; apply tokenKeeps_cur; auto using same_refl; discriminate. }
    assert (Ok (c, u, valueKind (c_sub c), SNil) = Ok (c', t, ty, e) -> tokenKeeps c c' ty e) as HNum by (intro HG; injection HG as <- <- <- <-; apply tokenKeeps_cur; auto using same_refl).
    match type of H with match valueCheck u with VQuoted _ => _ | VNumber => _ | VNot => ?X end = _ => assert (X = Ok (c', t, ty, e) -> tokenKeeps c c' ty e) as HRest end.
    { clear H HVal HNum. intro H.
      destruct (bytes_eqb u (s2b "true")); [injection H as <- <- <- <-; apply tokenKeeps_cur; auto; try discriminate; split; auto|].
      destruct (bytes_eqb u (s2b "false")); [injection H as <- <- <- <-; apply tokenKeeps_cur; auto; try discriminate; split; auto|].
      destruct (funcKey u) as [[[key ?] ?]|]; [eapply funcToken_keeps; exact H|].
      destruct (hasByte u 40 || hasByte u 41).
      - destruct (negb (bytes_eqb u [40%N]) && hasPrefix u [40%N]) eqn:E1.
        { apply andb_true_iff in E1 as [A B]. apply negb_true_iff in A. apply IH in H. eapply tokenKeeps_put; [exact HT| | |exact H]; [apply Nat.lt_le_incl; now apply head_wt|intros; now apply head_in]. }
        destruct (negb (bytes_eqb u [40%N]) && hasSuffix u [40%N]) eqn:E2.
        { apply andb_true_iff in E2 as [A B]. apply negb_true_iff in A. apply IH in H. eapply tokenKeeps_put; [exact HT| | |exact H]; [apply Nat.lt_le_incl; now apply splitSuffix_wt|intros; now apply splitSuffix_in]. }
        destruct (negb (bytes_eqb u [41%N]) && hasSuffix u [41%N]) eqn:E3.
        { apply andb_true_iff in E3 as [A B]. apply negb_true_iff in A. apply IH in H. eapply tokenKeeps_put; [exact HT| | |exact H]; [apply Nat.lt_le_incl; now apply splitSuffix_wt|intros; now apply splitSuffix_in]. }
        destruct (negb (bytes_eqb u [41%N]) && hasPrefix u [41%N]) eqn:E4.
        { apply andb_true_iff in E4 as [A B]. apply negb_true_iff in A. destruct (closeParen _) as [c1 e1] eqn:EC. injection H as <- <- <- <-.
          eapply tokenKeeps_put; [exact HT|apply Nat.lt_le_incl; apply (head_wt u 41%N A B)|intros; now apply head_in|].
          replace c1 with (fst (closeParen (putToks c [[41%N]; trimPrefix u [41%N]]))) by (rewrite EC; reflexivity). apply closeParen_keeps. discriminate. }
        destruct (bytes_eqb u [41%N]).
        { destruct (closeParen c) as [c1 e1] eqn:EC. injection H as <- <- <- <-. replace c1 with (fst (closeParen c)) by (rewrite EC; reflexivity). apply closeParen_keeps. discriminate. }
        destruct (bytes_eqb u [40%N]) eqn:E6.
        { apply bytes_eqb_eq in E6 as ->. destruct (openParen c) as [c1 e1] eqn:EC. injection H as <- <- <- <-. now apply openParen_keeps. }
        destruct (seekOp u) as [op|] eqn:ES; [eapply HSep; eauto|]. injection H as <- <- <- <-. apply tokenKeeps_cur; auto using same_refl; discriminate.
      - assert (forall q, unfinishedQuote u = Some q -> unfinished f (withToks c (c_toks c) (S (c_cur c))) q (trimPrefix u [q]) = Ok (c', t, ty, e) -> tokenKeeps c c' ty e) as HU.
        { intros q HQ HG. apply unfinished_keeps in HG as [A [B [C D]]]. split; [destruct A; split; auto|]. split; [|split; [intros _; exact B|contradiction]].
          intro S. pose proof (safe_quiet c u q S HT HQ) as Q. destruct (D Q) as [D1 [D2 D3]]. cbn in D1, D2, D3. apply shrinks_cur; auto; lia. }
        assert (match seekOp u with Some op => getToken o f (putToks c (splitFirst u op)) | None => Ok (fieldToken c u) end = Ok (c', t, ty, e) -> tokenKeeps c c' ty e) as HF.
        { intro HG. destruct (seekOp u) as [op|] eqn:ES; [eapply HSep; eauto|]. injection HG as HG. eapply fieldToken_keeps; eauto. }
        destruct (unfinishedQuote u) as [q|] eqn:EU; [|apply HF; exact H]. destruct (sc_mode (c_sub c)); auto. eapply HU; eauto. }
    destruct (valueCheck u) as [q| |]; auto. destruct (sc_mode (c_sub c)); auto. injection H as H. eapply HVal; eauto.
  Qed.
  Lemma put_less : forall c t l, nth_error (c_toks c) (c_cur c) = Some t -> wts l < wt t -> weight (putToks c l) < weight c.
  Proof. intros c t l HT HW. pose proof (weight_put c t l HT). lia. Qed.
  Lemma getToken_ends : forall f c, safe c -> weight c + 2 <= f -> getToken o f c <> OutOfFuel.
  Proof.
    induction f as [|f IH]; intros c HS HF; [lia|]. cbn [getToken]. destruct (nth_error (c_toks c) (c_cur c)) as [u|] eqn:HT; [|discriminate]. cbv zeta.
    destruct (bytes_eqb u (s2b "NOT") || bytes_eqb u (s2b "IS")); [destruct (multiSeek _ _ _) as [[i op]|]; discriminate|].
    destruct (isOp u) eqn:EO; [discriminate|].
    assert (forall l, wts l < wt u -> (forall b, ~ In b u -> lacks b l) -> getToken o f (putToks c l) <> OutOfFuel) as HP.
    { intros l HW HL. apply IH; [|pose proof (put_less c u l HT HW); lia]. destruct (shrinks_put c u l HT (Nat.lt_le_incl _ _ HW) HL HS). assumption. }
    assert (forall op, seekOp u = Some op -> getToken o f (putToks c (splitFirst u op)) <> OutOfFuel) as HSep.
    { intros op ES. apply HP; [now apply splitFirst_wt|intros; now apply splitFirst_in]. }
    assert (length u < f) as HLen by (pose proof (weight_cur c u HT); pose proof (wt_len u); lia).
    match goal with |- match valueCheck u with VQuoted _ => _ | VNumber => _ | VNot => ?X end <> _ => assert (X <> OutOfFuel) as HRest end.
    { destruct (bytes_eqb u (s2b "true")); [discriminate|]. destruct (bytes_eqb u (s2b "false")); [discriminate|].
      destruct (funcKey u) as [[[key ?] ?]|].
      { unfold funcToken. destruct (resolve_ends o f u HLen {| h_args := [[]]; h_lvl := 0 |} key) as [[h e] ->]. destruct (sc_mode (c_sub c)); discriminate. }
      destruct (hasByte u 40 || hasByte u 41).
      - destruct (negb (bytes_eqb u [40%N]) && hasPrefix u [40%N]) eqn:E1.
        { apply andb_true_iff in E1 as [A B]. apply negb_true_iff in A. apply HP; [now apply head_wt|intros; now apply head_in]. }
        destruct (negb (bytes_eqb u [40%N]) && hasSuffix u [40%N]) eqn:E2.
        { apply andb_true_iff in E2 as [A B]. apply negb_true_iff in A. apply HP; [now apply splitSuffix_wt|intros; now apply splitSuffix_in]. }
        destruct (negb (bytes_eqb u [41%N]) && hasSuffix u [41%N]) eqn:E3.
        { apply andb_true_iff in E3 as [A B]. apply negb_true_iff in A. apply HP; [now apply splitSuffix_wt|intros; now apply splitSuffix_in]. }
        destruct (negb (bytes_eqb u [41%N]) && hasPrefix u [41%N]); [destruct (closeParen _); discriminate|].
        destruct (bytes_eqb u [41%N]); [destruct (closeParen _); discriminate|]. destruct (bytes_eqb u [40%N]); [destruct (openParen c); discriminate|].
        destruct (seekOp u) as [op|] eqn:ES; [now apply HSep|discriminate].
      - assert (match seekOp u with Some op => getToken o f (putToks c (splitFirst u op)) | None => Ok (fieldToken c u) end <> OutOfFuel) as HG
          by (destruct (seekOp u) as [op|] eqn:ES; [now apply HSep|discriminate]).
        destruct (unfinishedQuote u) as [q|] eqn:EU; [|exact HG]. destruct (sc_mode (c_sub c)); try exact HG.
        destruct f as [|f]; [lia|]. apply unfinished_ends; [exact (safe_quiet c u q HS HT EU)|]. cbn [withToks c_toks c_cur].
        pose proof (wts_len (skipn (c_cur c) (c_toks c))) as HL. rewrite skipn_length in HL. unfold weight in HF. assert (c_cur c < length (c_toks c)) by (apply nth_error_Some; congruence). lia. }
    destruct (valueCheck u) as [q| |]; try exact HRest; [|discriminate]. destruct (sc_mode (c_sub c)); try exact HRest; discriminate.
  Qed.
End Token.

(** ** The parser *)
Lemma rest_less : forall c t, nth_error (c_toks c) (c_cur c) = Some t -> wts (skipn (S (c_cur c)) (c_toks c)) < weight c.
Proof. intros c t H. rewrite (weight_cur c t H). pose proof (wt_pos t). lia. Qed.
Lemma rest_zero : forall c, weight c = 0 -> nth_error (c_toks c) (c_cur c) = None.
Proof. intros c H. destruct (nth_error (c_toks c) (c_cur c)) as [t|] eqn:E; [|reflexivity]. rewrite (weight_cur c t E) in H. pose proof (wt_pos t). lia. Qed.
Lemma advance_keeps : forall c c' e, advance c = (c', e) ->
  c_toks c' = c_toks c /\ c_depth c' = c_depth c /\ c_tree c' = c_tree c /\ sc_sub (c_sub c') = sc_sub (c_sub c) /\ sc_op (c_sub c') = sc_op (c_sub c)
  /\ c_funcs c' = c_funcs c /\ (helperOk (sc_func (c_sub c)) -> helperOk (sc_func (c_sub c')))
  /\ c_cur c <= c_cur c' /\ (e = SNil -> c_cur c' = S (c_cur c)).
Proof.
  intros c c' e H. unfold advance in H. cbn [withToks c_advOnly c_sub] in H. destruct (c_advOnly c); [injection H as <- <-; cbn; repeat split; auto|].
  cbv zeta in H. cbn [sFunc sc_mode sc_opctx sc_one] in H.
  destruct (sc_mode (c_sub c)); [|destruct (sc_opctx (c_sub c))|destruct (sc_one (c_sub c))|]; injection H as <- <-; cbn; repeat split; auto; try lia; try discriminate.
Qed.
Lemma checkType_keeps : forall c ty c' e, checkType c ty = (c', e) -> c' = c \/ c' = withAdv c true.
Proof.
  intros c ty c' e H. unfold checkType in H. cbv zeta in H. destruct (sc_mode (c_sub c)), ty; try (injection H as <- <-; auto).
Qed.
Lemma checkType_new : forall c ty c' e, checkType c ty = (c', e) -> e = SNewCtx \/ e = SOneNewCtx ->
  c' = c /\ (ty = TkParen \/ (ty <> TkOp /\ sc_opctx (c_sub c) = ChainOp)).
Proof.
  intros c ty c' e H HE. unfold checkType in H. cbv zeta in H.
  destruct (sc_mode (c_sub c)), ty; injection H as <- <-; destruct (sc_opctx (c_sub c)); destruct HE as [HE|HE]; try discriminate HE; split; auto; right; split; auto; discriminate.
Qed.
Lemma insertNode_keeps : forall c ty t c', insertNode c ty t = Ok c' ->
  c_toks c' = c_toks c /\ c_depth c' = c_depth c /\ c_cur c' = c_cur c
  /\ (helperOk (sc_func (c_sub c)) -> funcsOk (c_funcs c) -> helperOk (sc_func (c_sub c')) /\ funcsOk (c_funcs c')).
Proof.
  intros c ty t c' H. unfold insertNode in H. cbv zeta in H.
  assert (helperOk (sc_func (c_sub c)) -> funcsOk (c_funcs c) -> funcsOk (match sc_func (c_sub c) with Some h => (length (c_tree c), h) :: c_funcs c | None => c_funcs c end)) as HF.
  { intros H1 H2. destruct (sc_func (c_sub c)); auto. apply Forall_cons; auto. }
  destruct (sc_mode (c_sub c)).
  - injection H as <-. do 3 (split; [reflexivity|]). intros A B. split; [exact A|]. first [exact B|exact (HF A B)].
  - destruct (setNode _ _ _); cbn [obind] in H; try discriminate. destruct (setNodeAt _ _ _); cbn [obind] in H; try discriminate. injection H as <-. do 3 (split; [reflexivity|]). intros A B. split; [exact A|]. first [exact B|exact (HF A B)].
  - destruct (setNode _ _ _); cbn [obind] in H; try discriminate. destruct (setNodeAt _ _ _); cbn [obind] in H; try discriminate. injection H as <-. do 3 (split; [reflexivity|]). intros A B. split; [exact A|]. first [exact B|exact (HF A B)].
  - destruct (setNode _ _ _); cbn [obind] in H; try discriminate. destruct (setNodeAt _ _ _); cbn [obind] in H; try discriminate. injection H as <-. do 3 (split; [reflexivity|]). intros A B. split; [exact A|]. first [exact B|exact (HF A B)].
Qed.
Lemma merge_keeps : forall c old c' e, merge c old = Ok (c', e) ->
  c_toks c' = c_toks c /\ c_depth c' = c_depth c /\ c_cur c' = c_cur c /\ c_funcs c' = c_funcs c /\ (c_sub c' = c_sub c \/ c_sub c' = old).
Proof.
  intros c old c' e H. unfold merge in H. destruct (isUnused old); [injection H as <- <-; auto 6|]. destruct (_ && _); [injection H as <- <-; auto 6|].
  destruct (sc_op old) as [a|]; [|discriminate]. destruct (sc_op (c_sub c)) as [b|]; [|discriminate]. destruct (_ || _); [injection H as <- <-; auto 6|].
  destruct (idx (c_tree c) a) as [na| | |]; cbn [obind] in H; try discriminate. destruct (pn_right na); [injection H as <- <-; auto 6|].
  destruct (setNode (c_tree c) a _) as [t1| | |]; cbn [obind] in H; try discriminate. destruct (idx t1 b) as [nb| | |]; cbn [obind] in H; try discriminate.
  destruct (pn_parent nb); [injection H as <- <-; cbn; auto 6|]. destruct (setNode t1 b _) as [t2| | |]; cbn [obind] in H; try discriminate.
  destruct (idx t2 a) as [n2| | |]; cbn [obind] in H; try discriminate. injection H as <- <-. cbn. auto 6.
Qed.

Section Parse.
  Variable o : oracles.
  Definition nextR (f : nat) (c c' : ctx) (e : serr) : Prop :=
    exists c5 e5, advance c = (c5, e5) /\ ((e5 = SNil /\ parse o f c5 = Ok (c', e)) \/ (e5 <> SNil /\ finish c5 e5 = Ok (c', e))).
  Lemma parse_inv : forall f c c' e, parse o (S f) c = Ok (c', e) ->
    exists c1 t ty e1, getToken o f c = Ok (c1, t, ty, e1) /\
    ((e1 <> SNil /\ finish c1 e1 = Ok (c', e)) \/
     (e1 = SNil /\ exists c2 e2, checkType c1 ty = (c2, e2) /\
       ((e2 <> SNil /\ finish c2 e2 = Ok (c', e)) \/
        (e2 = SNil /\ exists c3, insertNode c2 ty t = Ok c3 /\ nextR f c3 c' e) \/
        ((e2 = SNewCtx \/ e2 = SOneNewCtx) /\ exists b c3 e3, parse o f (withSub c2 (newSub b)) = Ok (c3, e3) /\
          ((e3 <> SNil /\ e3 <> SOneDone /\ finish c3 e3 = Ok (c', e)) \/
           ((e3 = SNil \/ e3 = SOneDone) /\ exists c4 e4, merge c3 (c_sub c2) = Ok (c4, e4) /\
             ((e4 <> SNil /\ finish c4 e4 = Ok (c', e)) \/ (e4 = SNil /\ nextR f c4 c' e)))))))).
  Proof.
    intros f c c' e H. cbn [parse] in H. cbv zeta in H. destruct (getToken o f c) as [[[[c1 t] ty] e1]| | |]; cbn [obind] in H; try discriminate.
    exists c1, t, ty, e1. split; [reflexivity|].
    assert (forall c3, (let (c4, e4) := advance c3 in match e4 with SNil => parse o f c4 | e => finish c4 e end) = Ok (c', e) -> nextR f c3 c' e) as HN.
    { intros c3 H3. unfold nextR. destruct (advance c3) as [c4 e4]. exists c4, e4. split; [reflexivity|]. destruct e4; [left; auto|right; split; [discriminate|exact H3]..]. }
    destruct e1; [|left; split; [discriminate|exact H]..]. right. split; [reflexivity|]. destruct (checkType c1 ty) as [c2 e2]. exists c2, e2. split; [reflexivity|].
    assert (forall b, (do (c3, e3) <- parse o f (withSub c2 (newSub b)); match e3 with SNil | SOneDone => do (c4, e4) <- merge c3 (c_sub c2);
          match e4 with SNil => (let (c5, e5) := advance c4 in match e5 with SNil => parse o f c5 | e => finish c5 e end) | e => finish c4 e end | e => finish c3 e end) = Ok (c', e) ->
       exists b c3 e3, parse o f (withSub c2 (newSub b)) = Ok (c3, e3) /\
          ((e3 <> SNil /\ e3 <> SOneDone /\ finish c3 e3 = Ok (c', e)) \/
           ((e3 = SNil \/ e3 = SOneDone) /\ exists c4 e4, merge c3 (c_sub c2) = Ok (c4, e4) /\
             ((e4 <> SNil /\ finish c4 e4 = Ok (c', e)) \/ (e4 = SNil /\ nextR f c4 c' e))))) as HB.
    { intros b H3. exists b. destruct (parse o f (withSub c2 (newSub b))) as [[c3 e3]| | |]; cbn [obind] in H3; try discriminate. exists c3, e3. split; [reflexivity|].
      destruct e3; try (left; split; [discriminate|]; split; [discriminate|exact H3]);
        (right; split; [auto|]; destruct (merge c3 (c_sub c2)) as [[c4 e4]| | |]; cbn [obind] in H3; try discriminate; exists c4, e4; split; [reflexivity|];
         destruct e4; [right; split; [reflexivity|apply HN; exact H3]|left; split; [discriminate|exact H3]..]). }
    destruct e2; try (left; split; [discriminate|exact H]).
    - right. left. split; [reflexivity|]. destruct (insertNode c2 ty t) as [c3| | |]; cbn [obind] in H; try discriminate. exists c3. split; [reflexivity|]. apply HN. exact H.
    - right. right. split; [auto|]. apply (HB false). exact H.
    - right. right. split; [auto|]. apply (HB true). exact H.
  Qed.

  Definition funcsKept (c c' : ctx) : Prop := helperOk (sc_func (c_sub c)) -> funcsOk (c_funcs c) -> helperOk (sc_func (c_sub c')) /\ funcsOk (c_funcs c').
  Lemma fk_trans : forall a b c, funcsKept a b -> funcsKept b c -> funcsKept a c.
  Proof. intros a b c H1 H2 A B. destruct (H1 A B). now apply H2. Qed.
  Lemma parse_keeps : forall f c c' e, parse o f c = Ok (c', e) -> shrinks c c' /\ funcsKept c c'.
  Proof.
    induction f as [|f IH]; intros c c' e H; [discriminate|]. apply parse_inv in H as [c1 [t [ty [e1 [HG H]]]]].
    apply getToken_keeps in HG as [G1 [G2 [_ _]]].
    assert (funcsKept c c1) as G3 by (intros A B; rewrite (same_funcs _ _ G1); split; [now apply (same_help _ _ G1)|exact B]). clear G1.
    assert (forall c2 e2 c3 e3, finish c2 e2 = Ok (c3, e3) -> c3 = c2) as HFin by (intros c2 e2 c3 e3 X; unfold finish in X; injection X as <- _; reflexivity).
    assert (forall c3, nextR f c3 c' e -> shrinks c3 c' /\ funcsKept c3 c') as HNext.
    { intros c3 [c5 [e5 [HA X]]]. apply advance_keeps in HA as [A1 [A2 [A3 [A4 [A5 [A6 [A7 [A8 A9]]]]]]]].
      assert (shrinks c3 c5) as B1 by (apply shrinks_cur; auto; lia). assert (funcsKept c3 c5) as B2 by (intros P Q; rewrite A6; auto).
      destruct X as [[_ X]|[_ X]]; [|apply HFin in X as ->; auto]. apply IH in X as [X1 X2]. split; [eapply shrinks_trans|eapply fk_trans]; eauto. }
    destruct H as [[_ H]|[_ [c2 [e2 [HC H]]]]]; [apply HFin in H as ->; auto|].
    assert (shrinks c c2 /\ funcsKept c c2) as [G4 G5] by (apply checkType_keeps in HC as [-> | ->]; auto). clear G2 G3 HC c1.
    destruct H as [[_ H]|[[_ [c3 [HI H]]]|[_ [b [c3 [e3 [HP H]]]]]]].
    - apply HFin in H as ->. auto.
    - apply insertNode_keeps in HI as [I1 [I2 [I3 I4]]]. assert (shrinks c2 c3) as I5 by (apply shrinks_cur; auto; lia). apply HNext in H as [H1 H2].
      split; [eapply shrinks_trans; [exact G4|]; eapply shrinks_trans; eauto|eapply fk_trans; [exact G5|]; eapply fk_trans; eauto].
    - apply IH in HP as [P1 P2]. assert (shrinks c2 c3) as P3 by exact P1.
      assert (funcsKept c2 c3) as P4 by (intros A B; apply P2; [exact I|exact B]).
      destruct H as [[_ [_ H]]|[_ [c4 [e4 [HM H]]]]].
      + apply HFin in H as ->. split; [eapply shrinks_trans|eapply fk_trans]; eauto.
      + apply merge_keeps in HM as [M1 [M2 [M3 [M4 M5]]]].
        assert (shrinks c3 c4) as M6 by (apply shrinks_cur; auto; lia).
        assert (funcsKept c2 c4) as M7 by (intros A B; destruct (P4 A B) as [C D]; rewrite M4; split; [destruct M5 as [-> | ->]; auto|exact D]).
        assert (shrinks c c4 /\ funcsKept c c4) as [Q1 Q2] by (split; [eapply shrinks_trans; [exact G4|eapply shrinks_trans; [exact P3|exact M6]]|eapply fk_trans; eauto]).
        destruct H as [[_ H]|[_ H]]; [apply HFin in H as ->; auto|]. apply HNext in H as [H1 H2]. split; [eapply shrinks_trans|eapply fk_trans]; eauto.
  Qed.

  Lemma adv_weight : forall c c' W, advance c = (c', SNil) -> weight c <= W -> 0 < W -> weight c' < W.
  Proof.
    intros c c' W H HW HP. apply advance_keeps in H as [A1 [_ [_ [_ [_ [_ [_ [_ A9]]]]]]]]. specialize (A9 eq_refl). unfold weight at 1. rewrite A1, A9.
    destruct (nth_error (c_toks c) (c_cur c)) as [t|] eqn:E; [pose proof (rest_less c t E); lia|].
    rewrite skipn_all2 by (apply nth_error_None in E; lia). exact HP.
  Qed.
  Definition chainFlag (c : ctx) : nat := match sc_opctx (c_sub c) with ChainOp => 1 | _ => 0 end.
  Definition measure (c : ctx) : nat := 2 * weight c + chainFlag c.
  Lemma merge_total : forall c old, merge c old <> OutOfFuel.
  Proof.
    intros c old. unfold merge. destruct (isUnused old); [discriminate|]. destruct (_ && _); [discriminate|].
    assert (forall t i g, setNode t i g <> OutOfFuel) as HS by (intros t i g; unfold setNode; destruct (nth_error t i); discriminate).
    assert (forall (A : Type) (t : list A) i, idx t i <> OutOfFuel) as HI by (intros A t i; unfold idx; destruct (nth_error t i); discriminate).
    destruct (sc_op old) as [a|]; [|discriminate]. destruct (sc_op (c_sub c)) as [b|]; [|discriminate]. destruct (_ || _); [discriminate|].
    specialize (HI pnode). destruct (idx (c_tree c) a) as [na| | |] eqn:E1; cbn [obind]; try discriminate; [|now apply HI in E1]. destruct (pn_right na); [discriminate|].
    destruct (setNode (c_tree c) a _) as [t1| | |] eqn:E2; cbn [obind]; try discriminate; [|now apply HS in E2]. destruct (idx t1 b) as [nb| | |] eqn:E3; cbn [obind]; try discriminate; [|now apply HI in E3].
    destruct (pn_parent nb); [discriminate|]. destruct (setNode t1 b _) as [t2| | |] eqn:E4; cbn [obind]; try discriminate; [|now apply HS in E4].
    destruct (idx t2 a) as [n2| | |] eqn:E5; cbn [obind]; try discriminate. now apply HI in E5.
  Qed.
  Lemma insertNode_total : forall c ty t, insertNode c ty t <> OutOfFuel.
  Proof.
    intros c ty t. unfold insertNode. cbv zeta.
    assert (forall t i g, setNode t i g <> OutOfFuel) as HS by (intros u i g; unfold setNode; destruct (nth_error u i); discriminate).
    assert (forall t i g, setNodeAt t i g <> OutOfFuel) as HA by (intros u i g; unfold setNodeAt; destruct i; [apply HS|discriminate]).
    destruct (sc_mode (c_sub c)); try discriminate;
      match goal with |- context [setNode ?a ?b ?c] => destruct (setNode a b c) eqn:E1 end; cbn [obind]; try discriminate; try (now apply HS in E1);
      match goal with |- context [setNodeAt ?a ?b ?c] => destruct (setNodeAt a b c) eqn:E2 end; cbn [obind]; try discriminate; now apply HA in E2.
  Qed.
  Definition ends (c : ctx) : Prop := exists f, parse o f c <> OutOfFuel.
  Lemma ends_next : forall c, (forall c' , advance c = (c', SNil) -> ends c') ->
    exists N, forall f, N <= f -> (let (c5, e5) := advance c in match e5 with SNil => parse o f c5 | e => finish c5 e end) <> OutOfFuel.
  Proof.
    intros c H. destruct (advance c) as [c5 e5]. destruct e5; try (exists 0; intros; discriminate). destruct (H _ eq_refl) as [N HN]. exists N. intros f Hf. now rewrite (parse_mono o c5 N f Hf HN).
  Qed.
  Lemma parse_ends : forall n c, safe c -> measure c < n -> ends c.
  Proof.
    induction n as [|n IH]; intros c HS HM; [lia|]. set (F := weight c + 2). assert (getToken o F c <> OutOfFuel) as HG by (apply getToken_ends; auto; lia).
    assert (forall f, F <= f -> getToken o f c = getToken o F c) as HGM by (intros f Hf; now apply (getToken_mono o c F f)).
    destruct (getToken o F c) as [[[[c1 t] ty] e1]| | |] eqn:EG; [| | |contradiction].
    2,3: exists (S F); cbn [parse]; rewrite EG; discriminate.
    pose proof (getToken_keeps o F c c1 t ty e1 EG) as [K1 [K2 [K3 K4]]]. destruct (K2 HS) as [S1 W1].
    destruct e1; try (exists (S F); cbn [parse]; rewrite EG; cbn [obind]; discriminate).
    assert (0 < weight c) as HP.
    { assert (weight c = 0 \/ 0 < weight c) as [EW|EW] by lia; [|exact EW]. exfalso. unfold F in EG. rewrite EW in EG. cbn [getToken Nat.add] in EG. rewrite (rest_zero c EW) in EG. discriminate. }
    destruct (checkType c1 ty) as [c2 e2] eqn:EC.
    assert (safe c2 /\ weight c2 <= weight c) as [S2 W2] by (apply checkType_keeps in EC as [-> | ->]; auto).
    assert (forall c3, safe c3 -> weight c3 <= weight c -> forall c4, advance c3 = (c4, SNil) -> ends c4) as HNext.
    { intros c3 S3 W3 c4 HA. apply IH; [|pose proof (adv_weight _ _ _ HA W3 HP) as W4; unfold measure, chainFlag in *; destruct (sc_opctx (c_sub c4)); lia].
      apply advance_keeps in HA as [A1 [A2 [_ [_ [_ [_ [_ [A8 _]]]]]]]]. assert (shrinks c3 c4) as X by (apply shrinks_cur; auto; lia). apply X. exact S3. }
    assert (e2 = SNewCtx \/ e2 = SOneNewCtx -> forall b, exists N, forall f, N <= f -> (do (c3, e3) <- parse o f (withSub c2 (newSub b)); match e3 with SNil | SOneDone => do (c4, e4) <- merge c3 (c_sub c2);
          match e4 with SNil => (let (c5, e5) := advance c4 in match e5 with SNil => parse o f c5 | e => finish c5 e end) | e => finish c4 e end | e => finish c3 e end) <> OutOfFuel) as HB.
    { intros HE b. destruct (checkType_new _ _ _ _ EC HE) as [-> HX].
      assert (ends (withSub c1 (newSub b))) as [f1 HF1].
      { apply IH; [exact S1|]. unfold measure in *. change (chainFlag (withSub c1 (newSub b))) with 0. change (weight (withSub c1 (newSub b))) with (weight c1).
        destruct HX as [-> | [HX1 HX2]]; [specialize (K4 eq_refl eq_refl HS); lia|]. rewrite (K3 HX1) in HX2. unfold chainFlag in HM. rewrite HX2 in HM. lia. }
      assert (forall f, f1 <= f -> parse o f (withSub c1 (newSub b)) = parse o f1 (withSub c1 (newSub b))) as HPM by (intros f Hf; now apply (parse_mono o _ f1 f)).
      destruct (parse o f1 (withSub c1 (newSub b))) as [[c3 e3]| | |] eqn:EP; [| | |contradiction].
      2,3: exists f1; intros f Hf; rewrite (HPM f Hf); discriminate.
      destruct (parse_keeps _ _ _ _ EP) as [X _]. destruct (X S1) as [S3 W3]. change (weight (withSub c1 (newSub b))) with (weight c1) in W3.
      assert (exists N, forall f, N <= f -> (do (c4, e4) <- merge c3 (c_sub c1); match e4 with SNil => (let (c5, e5) := advance c4 in match e5 with SNil => parse o f c5 | e => finish c5 e end) | e => finish c4 e end) <> OutOfFuel) as [N2 HN2].
      { destruct (merge c3 (c_sub c1)) as [[c4 e4]| | |] eqn:EM; [|exists 0; discriminate|exists 0; discriminate|now apply merge_total in EM]. cbn [obind].
        destruct e4; try (exists 0; intros; discriminate). apply merge_keeps in EM as [M1 [M2 [M3 _]]]. assert (shrinks c3 c4) as Y by (apply shrinks_cur; auto; lia). destruct (Y S3) as [S4 W4].
        apply ends_next. apply HNext; auto. lia. }
      exists (f1 + N2). intros f Hf. rewrite HPM by lia. cbn [obind]. destruct e3; try discriminate; apply HN2; lia. }
    destruct e2; try (exists (S F); cbn [parse]; rewrite EG; cbn [obind]; rewrite EC; discriminate).
    - destruct (insertNode c2 ty t) as [c3| | |] eqn:EI; [|exists (S F); cbn [parse]; rewrite EG; cbn [obind]; rewrite EC, EI; discriminate..|now apply insertNode_total in EI].
      pose proof EI as EI'. apply insertNode_keeps in EI' as [I1 [I2 [I3 _]]]. assert (shrinks c2 c3) as X by (apply shrinks_cur; auto; lia). destruct (X S2) as [S3 W3].
      destruct (ends_next c3 (HNext c3 S3 ltac:(lia))) as [N HN]. exists (S (F + N)). cbn [parse]. cbv zeta. rewrite HGM by lia. cbn [obind]. rewrite EC, EI. cbn [obind]. apply HN. lia.
    - destruct (HB (or_introl eq_refl) false) as [N HN]. exists (S (F + N)). cbn [parse]. cbv zeta. rewrite HGM by lia. cbn [obind]. rewrite EC. apply HN. lia.
    - destruct (HB (or_intror eq_refl) true) as [N HN]. exists (S (F + N)). cbn [parse]. cbv zeta. rewrite HGM by lia. cbn [obind]. rewrite EC. apply HN. lia.
  Qed.
End Parse.
