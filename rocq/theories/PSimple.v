(** Parsing a chain of tests. *)
From Coq Require Import String.
From Verif Require Import Base MTokenizer MLit MFastVal MMath MBinTree SEvents MExpr MExprJson MText MSimple SSimple PSimpleWords PSimpleField.
From Coq Require Import List NArith ZArith Arith Lia Bool.
Import ListNotations.
Open Scope nat_scope.

Section Parse.
  Variable o : oracles.

  Definition reads (c : ctx) (q : ctx * bytes * ttype * serr) : Prop := exists n, forall f, n <= f -> getToken o f c = Ok q.
  Definition parses (c : ctx) (r : ctx * serr) : Prop := exists n, forall f, n <= f -> parse o f c = Ok r.

  (** ** One turn of the parser *)
  Lemma parses_insert : forall c c1 t ty c2 c3 c4 r, reads c (c1, t, ty, SNil) -> checkType c1 ty = (c2, SNil) ->
    insertNode c2 ty t = Ok c3 -> advance c3 = (c4, SNil) -> parses c4 r -> parses c r.
  Proof.
    intros c c1 t ty c2 c3 c4 r [n Hr] HC HI HA [m Hp]. exists (S (n + m)). intros [|f] Hf; [lia|]. cbn [parse].
    rewrite Hr by lia. cbn [obind]. rewrite HC, HI. cbn [obind]. rewrite HA. apply Hp. lia.
  Qed.
  Lemma parses_one : forall c c1 t ty c2 c3 c4, reads c (c1, t, ty, SNil) -> checkType c1 ty = (c2, SNil) ->
    insertNode c2 ty t = Ok c3 -> advance c3 = (c4, SOneDone) -> parses c (c4, SOneDone).
  Proof.
    intros c c1 t ty c2 c3 c4 [n Hr] HC HI HA. exists (S n). intros [|f] Hf; [lia|]. cbn [parse].
    rewrite Hr by lia. cbn [obind]. rewrite HC, HI. cbn [obind]. rewrite HA. reflexivity.
  Qed.
  Lemma parses_end : forall c, nth_error (c_toks c) (c_cur c) = None -> c_depth c = 0 -> parses c (c, SNil).
  Proof.
    intros c H HD. exists 2. intros [|[|f]] Hf; [lia|lia|]. cbn [parse getToken]. rewrite H. cbn [obind]. unfold finish. now rewrite HD.
  Qed.
  Lemma parses_new : forall c c1 t ty c2 e c3 e3 c4 c5 r, reads c (c1, t, ty, SNil) -> checkType c1 ty = (c2, e) ->
    e = SNewCtx \/ e = SOneNewCtx ->
    parses (withSub c2 (newSub (match e with SOneNewCtx => true | _ => false end))) (c3, e3) -> e3 = SNil \/ e3 = SOneDone ->
    merge c3 (c_sub c2) = Ok (c4, SNil) -> advance c4 = (c5, SNil) -> parses c5 r -> parses c r.
  Proof.
    intros c c1 t ty c2 e c3 e3 c4 c5 r [n Hr] HC HE [m Hi] HE3 HM HA [k Hp]. exists (S (n + m + k)). intros [|f] Hf; [lia|]. cbn [parse].
    rewrite Hr by lia. cbn [obind]. rewrite HC. destruct HE as [-> | ->]; rewrite Hi by lia; cbn [obind];
      (destruct HE3 as [-> | ->]); rewrite HM; cbn [obind]; rewrite HA; apply Hp; lia.
  Qed.

  (** ** States *)
  (** What is kept for a node: the path, the call. *)
  Definition store : Type := list (nat * (option (list bytes) * option fhelper)).
  Definition pathsIn (s : store) : list (nat * list bytes) := flat_map (fun e => match fst (snd e) with Some p => [(fst e, p)] | None => [] end) s.
  Definition funcsIn (s : store) : list (nat * fhelper) := flat_map (fun e => match snd (snd e) with Some h => [(fst e, h)] | None => [] end) s.
  Definition mk (toks : list bytes) (cur : nat) (lf : list bytes) (s : subctx) (sh : bool) (T : list pnode) (h : option nat) (ps : store) : ctx :=
    {| c_toks := toks; c_cur := cur; c_advOnly := false; c_lastField := lf; c_depth := 0; c_sub := s; c_short := sh; c_tree := T; c_head := h; c_paths := pathsIn ps; c_funcs := funcsIn ps |}.
  Definition sb (m : pmode) (x : opctx) (tf : bool) (su fi op va : option nat) (one : bool) : subctx :=
    {| sc_mode := m; sc_opctx := x; sc_bool := tf; sc_sub := su; sc_field := fi; sc_op := op; sc_val := va; sc_func := None; sc_one := one |}.
  Definition nd (ty : ttype) (d : bytes) (p l r : option nat) : pnode := {| pn_type := ty; pn_data := d; pn_parent := p; pn_left := l; pn_right := r |}.

  (** ** Reading *)
  Definition at_word (toks : list bytes) (cur : nat) (ws : list bytes) : Prop := exists pre post, toks = pre ++ ws ++ post /\ cur = length pre.
  Lemma at_head : forall toks cur w ws, at_word toks cur (w :: ws) -> nth_error toks cur = Some w.
  Proof. intros toks cur w ws (pre & post & -> & ->). rewrite nth_error_app2 by lia. now rewrite Nat.sub_diag. Qed.
  Lemma at_tail : forall toks cur a b, at_word toks cur (a ++ b) -> at_word toks (cur + length a) b.
  Proof.
    intros toks cur a b (pre & post & -> & ->). exists (pre ++ a), post. split; [now rewrite <- !app_assoc|now rewrite app_length].
  Qed.
  Lemma at_next : forall toks cur a b, at_word toks cur (a :: b) -> at_word toks (S cur) b.
  Proof. intros. change (a :: b) with ([a] ++ b) in H. apply at_tail in H. cbn [length] in H. now rewrite Nat.add_1_r in H. Qed.
  Lemma at_front : forall toks cur a b, at_word toks cur (a ++ b) -> at_word toks cur a.
  Proof. intros toks cur a b (pre & post & -> & ->). exists pre, (b ++ post). split; [now rewrite <- !app_assoc|auto]. Qed.
  Lemma at_skip : forall toks cur ws, at_word toks cur ws -> exists post, skipn cur toks = ws ++ post.
  Proof. intros toks cur ws (pre & post & -> & ->). exists post. rewrite skipn_app, skipn_all, Nat.sub_diag. reflexivity. Qed.

  Lemma pathOk_word : forall p, pathOk p -> let w := pathText p in
    bytes_eqb w (s2b "NOT") || bytes_eqb w (s2b "IS") = false /\ isOp w = false /\ valueCheck w <> VNumber
    /\ bytes_eqb w (s2b "true") = false /\ bytes_eqb w (s2b "false") = false /\ funcKey w = None /\ hasByte w 40 || hasByte w 41 = false /\ seekOp w = None.
  Proof.
    intros p (H1 & H2 & H3 & H4 & H5 & H6 & H7 & H8) w.
    assert (forall x, In x (map s2b ["NOT"; "IS"; "true"; "false"]%string) -> bytes_eqb w x = false) as X.
    { intros x Hx. apply bytes_eqb_neq. intros E. apply H8. fold w. now rewrite E. }
    rewrite !X by (cbn; tauto). repeat split; auto.
    - now apply noOps_isOp.
    - unfold valueCheck. rewrite wordy_isNum by auto. destruct (quotedBy 34 w), (quotedBy 39 w); discriminate.
    - apply funcKey_none. intros HI. eapply without_in; eauto. now left.
    - rewrite !(hasByte_without _ _ _ H5) by (cbn; tauto). reflexivity.
    - now apply noOps_seek.
  Qed.
  Lemma segText_first : forall s, segOk s -> exists c r, segText s = c :: r /\ c <> 46%N.
  Proof.
    intros [n|n] [Hn HW]; [|exists 96%N, (n ++ [96%N]); split; [reflexivity|discriminate]].
    destruct n as [|c n]; [contradiction|]. exists c, n. split; auto. inversion HW as [|? ? Hc ?]; subst. intros ->. apply Hc. now left.
  Qed.
  Lemma segText_last : forall s, segOk s -> exists c r, segText s = r ++ [c] /\ c <> 46%N.
  Proof.
    intros [n|n] [Hn HW]; [|exists 96%N, ([96%N] ++ n); split; [now rewrite <- app_assoc|discriminate]].
    destruct (exists_last Hn) as (r & c & ->). exists c, r. split; auto. apply Forall_app in HW as [_ HW]. inversion HW as [|? ? Hc ?]; subst.
    intros ->. apply Hc. now left.
  Qed.
  Lemma segs_last : forall l, l <> [] -> Forall segOk l -> exists c r, joinBy [46%N] (map segText l) = r ++ [c] /\ c <> 46%N.
  Proof.
    induction l as [|s l IH]; intros Hne H; [contradiction|]. inversion H; subst. destruct l as [|s2 l]; [now apply segText_last|].
    destruct IH as (c & r & E & HC); [discriminate|auto|]. exists c, (segText s ++ [46%N] ++ r). split; auto.
    change (joinBy [46%N] (map segText (s :: s2 :: l))) with (segText s ++ [46%N] ++ joinBy [46%N] (map segText (s2 :: l))). rewrite E. now rewrite <- !app_assoc.
  Qed.
  Lemma path_dots : forall p, pathOk p -> hasPrefix (pathText p) [46%N] || hasSuffix (pathText p) [46%N] = false.
  Proof.
    intros p (H1 & H2 & H3 & H4 & _). apply orb_false_iff. split.
    - destruct (hasPrefix (pathText p) [46%N]) eqn:E; auto. apply hasPrefix_spec in E as [r E]. unfold pathText in E.
      destruct (sp_segs p) as [|s l] eqn:ES; [contradiction|]. inversion H2 as [|? ? Hs ?]; subst. destruct (segText_first s Hs) as (c & q & EQ & HC).
      cbn [map joinBy] in E. rewrite EQ in E. destruct (map segText l); cbn in E; congruence.
    - destruct (hasSuffix (pathText p) [46%N]) eqn:E; auto. apply hasSuffix_spec in E as [r E]. exfalso. unfold pathText in E.
      destruct (sp_idx p) as [|d ds] eqn:ED using rev_ind.
      + cbn [map concat] in E. rewrite app_nil_r in E. destruct (segs_last _ H1 H2) as (c & q & EQ & HC). rewrite EQ in E. apply app_inj_tail in E as [_ E]. auto.
      + rewrite map_app, concat_app in E. cbn [map concat] in E. unfold idxText in E at 2. rewrite app_nil_r in E. rewrite !app_assoc in E.
        apply app_inj_tail in E as [_ E]. discriminate.
  Qed.
  Lemma read_path : forall p toks cur ws lf s sh T h ps, pathOk p -> at_word toks cur (pathText p :: ws) -> sc_mode s = MdField ->
    reads (mk toks cur lf s sh T h ps) (mk toks cur (pathOf p) s sh T h ps, [], TkField, SNil).
  Proof.
    intros p toks cur ws lf s sh T h ps HP HA HM. exists 1. intros [|f] Hf; [lia|]. pose proof HP as (H1 & H2 & H3 & H4 & _).
    destruct (pathOk_word p HP) as (W1 & W2 & W3 & W4 & W5 & W6 & W7 & W8). cbn [getToken mk c_toks c_cur c_sub].
    rewrite (at_head _ _ _ _ HA). cbv zeta. rewrite W1, W2, HM.
    assert (fieldToken (mk toks cur lf s sh T h ps) (pathText p) = (mk toks cur (pathOf p) s sh T h ps, [], TkField, SNil)) as EF.
    { unfold fieldToken. rewrite path_dots by auto. cbn [mk c_toks c_cur]. destruct HA as (pre & post & -> & ->).
      rewrite skipn_app, skipn_all, Nat.sub_diag. cbn [app skipn]. rewrite parseField_path by (auto; apply H4). cbv beta iota.
      match goal with |- context [withToks _ _ ?n] => replace n with (length pre) by (rewrite !app_length; cbn [length]; rewrite ?app_length; lia) end.
      reflexivity. }
    destruct (valueCheck (pathText p)); try contradiction; rewrite W4, W5, W6, W7; destruct (unfinishedQuote (pathText p)); rewrite W8; now rewrite EF.
  Qed.

  (** Operators of one word and of several. *)
  Lemma read_op : forall w toks cur ws lf s sh T h ps, isOp w = true -> at_word toks cur (w :: ws) ->
    reads (mk toks cur lf s sh T h ps) (markOp (mk toks cur lf s sh T h ps) (normalOp w), normalOp w, TkOp, SNil).
  Proof.
    intros w toks cur ws lf s sh T h ps HO HA. exists 1. intros [|f] Hf; [lia|]. cbn [getToken mk c_toks c_cur c_sub].
    rewrite (at_head _ _ _ _ HA). cbv zeta. rewrite HO.
    assert (bytes_eqb w (s2b "NOT") || bytes_eqb w (s2b "IS") = false) as ->; [|reflexivity].
    apply isOp_in in HO. cbn in HO. repeat (destruct HO as [<- | HO]; [reflexivity|]). destruct HO.
  Qed.
  Lemma multi_seek : forall ms op r, In (ms, op) multiWords -> multiSeek multiWords 0 (ms ++ r) = Some (length ms - 1, op).
  Proof. intros ms op r HI. cbn in HI. destruct HI as [X|[X|[X|[X|[]]]]]; injection X as <- <-; reflexivity. Qed.
  Lemma read_multi : forall ms op toks cur ws lf s sh T h ps, In (ms, op) multiWords -> at_word toks cur (ms ++ ws) ->
    reads (mk toks cur lf s sh T h ps) (markOp (mk toks (cur + (length ms - 1)) lf s sh T h ps) op, op, TkOp, SNil).
  Proof.
    intros ms op toks cur ws lf s sh T h ps HI HA. exists 1. intros [|f] Hf; [lia|].
    destruct (at_skip _ _ _ HA) as [post E]. rewrite <- app_assoc in E. pose proof (multi_seek ms op (ws ++ post) HI) as HM.
    assert (exists w ms', ms = w :: ms' /\ (w = s2b "NOT" \/ w = s2b "IS")) as (w & ms' & -> & HW).
    { cbn in HI. destruct HI as [X|[X|[X|[X|[]]]]]; injection X as <- <-; eauto 10. }
    cbn [getToken mk c_toks c_cur c_sub]. rewrite (at_head _ _ _ _ HA). rewrite E, HM.
    assert (bytes_eqb w (s2b "NOT") || bytes_eqb w (s2b "IS") = true) as ->; [|reflexivity]. destruct HW as [-> | ->]; reflexivity.
  Qed.

  (** Values. *)
  Definition opener (c : N) : Prop := c = 34%N \/ c = 39%N \/ c = 45%N \/ digit c.
  Lemma opener_word : forall c r, opener c ->
    bytes_eqb (c :: r) (s2b "NOT") || bytes_eqb (c :: r) (s2b "IS") = false /\ isOp (c :: r) = false
    /\ bytes_eqb (c :: r) (s2b "true") = false /\ bytes_eqb (c :: r) (s2b "false") = false.
  Proof.
    intros c r H. assert (forall d t, bytes_eqb (c :: r) (d :: t) = true -> c = d) as X.
    { intros d t E. apply bytes_eqb_eq in E. congruence. }
    assert (forall d t, ~ opener d -> bytes_eqb (c :: r) (d :: t) = false) as Y.
    { intros d t Hd. destruct (bytes_eqb (c :: r) (d :: t)) eqn:E; auto. apply X in E. subst. contradiction. }
    assert (forall d t, (d < 34 \/ 57 < d \/ d = 38)%N -> bytes_eqb (c :: r) (d :: t) = false) as Z.
    { intros d t Hd. apply Y. unfold opener, digit. lia. }
    split; [|split; [|split]].
    - cbn [s2b String.list_ascii_of_string map]. rewrite !Z by (cbn; lia). reflexivity.
    - destruct (isOp (c :: r)) eqn:E; auto. apply isOp_in in E. cbn in E. exfalso. unfold opener, digit in H.
      repeat (destruct E as [E|E]; [injection E as E _; subst; lia|]). destruct E.
    - apply Z. cbn. lia.
    - apply Z. cbn. lia.
  Qed.
  Lemma quote_opener : forall d, opener (quote d).
  Proof. intros []; unfold opener; cbn; auto. Qed.
  Lemma quotedBy_other : forall q c r, c <> q -> quotedBy q (c :: r) = false.
  Proof. intros q c r H. unfold quotedBy. cbn [hasPrefix]. assert (N.eqb q c = false) as -> by (apply N.eqb_neq; auto). cbn [andb]. now rewrite andb_false_r. Qed.
  Lemma quotedBy_whole : forall q w, quotedBy q ([q] ++ w ++ [q]) = true.
  Proof.
    intros q w. unfold quotedBy. rewrite hasPrefix_app. rewrite app_assoc, hasSuffix_app. rewrite !app_length. cbn [length].
    assert (2 <=? 1 + length w + 1 = true) as -> by (apply Nat.leb_le; lia). reflexivity.
  Qed.
  Lemma valueCheck_quoted : forall d w, valueCheck ([quote d] ++ w ++ [quote d]) = VQuoted (quote d).
  Proof.
    intros [] w; unfold valueCheck; cbn [quote]; [now rewrite quotedBy_whole|]. rewrite quotedBy_whole.
    cbn [app]. now rewrite quotedBy_other by discriminate.
  Qed.
  Lemma read_quoted : forall d w toks cur ws lf s sh T h ps, at_word toks cur (([quote d] ++ w ++ [quote d]) :: ws) -> sc_mode s = MdValue ->
    (sc_opctx s = MatchOp -> o_regexCompiles o w = true) ->
    reads (mk toks cur lf s sh T h ps) (mk toks cur lf s sh T h ps, w, valueKind s, SNil).
  Proof.
    intros d w toks cur ws lf s sh T h ps HA HM HC. exists 1. intros [|f] Hf; [lia|]. cbn [getToken mk c_toks c_cur c_sub].
    rewrite (at_head _ _ _ _ HA). cbv zeta. destruct (opener_word (quote d) (w ++ [quote d]) (quote_opener d)) as (W1 & W2 & _).
    cbn [app] in *. rewrite W1, W2. pose proof (valueCheck_quoted d w) as V. cbn [app] in V. rewrite V, HM. unfold valueToken. cbn [c_sub mk].
    change (quote d :: w ++ [quote d]) with ([quote d] ++ (w ++ [quote d])). rewrite trimPrefix_app, trimSuffix_app. unfold valueKind.
    destruct (sc_opctx s); try reflexivity. now rewrite HC.
  Qed.
  Lemma isNum_int : forall (neg : bool) ds, ds <> [] -> Forall digit ds -> (hd 0%N ds = 48%N -> length ds = 1) ->
    isNum ((if neg then [45%N] else []) ++ ds) = true /\ isIntText ((if neg then [45%N] else []) ++ ds) = true /\ intOf ((if neg then [45%N] else []) ++ ds) = intVal neg ds.
  Proof.
    intros neg ds Hn HD H0. assert (forallb isDigit ds = true) as HF by (apply forallb_forall; intros c Hc; rewrite Forall_forall in HD; now apply isDigit_spec, HD).
    destruct ds as [|c r]; [contradiction|]. assert (digit c) as Hc by now inversion HD. unfold digit in Hc.
    assert (N.eqb c 45 = false) as E45 by (apply N.eqb_neq; lia).
    assert (forall r, forallb isDigit r = true -> digitsThen r = []) as DT by (clear; induction r as [|c r IH]; cbn [forallb digitsThen]; auto; intro H; apply andb_true_iff in H as [-> H]; auto).
    assert (match (if N.eqb c 48 then Some r else if isDigit c then Some (digitsThen r) else None) with
                | None => false | Some [] => true
                | Some (d :: f) => N.eqb d 46 && (match f with [] => false | _ => true end) && forallb isDigit f end = true) as X.
    { cbn [forallb] in HF. apply andb_true_iff in HF as [HC HF]. destruct (N.eqb c 48) eqn:E.
      - apply N.eqb_eq in E. subst. destruct r; auto. exfalso. assert (length (48%N :: n :: r) = 1) by (apply H0; reflexivity). discriminate.
      - rewrite HC, (DT r HF). reflexivity. }
    destruct neg; cbn [app].
    - split; [exact X|]. split; [cbn [isIntText]; unfold isIntText; cbn [N.eqb Pos.eqb]; exact HF|]. reflexivity.
    - unfold isNum, isIntText, intOf. rewrite E45. split; [exact X|]. split; [exact HF|reflexivity].
  Qed.
  Lemma digitsThen_app : forall r t, forallb isDigit r = true -> digitsThen (r ++ t) = digitsThen t.
  Proof. induction r as [|c r IH]; intros t H; [reflexivity|]. cbn [forallb app digitsThen] in *. apply andb_true_iff in H as [-> H]. now apply IH. Qed.
  Lemma isNum_dec : forall (neg : bool) ds fs, ds <> [] -> Forall digit ds -> (hd 0%N ds = 48%N -> length ds = 1) -> fs <> [] -> Forall digit fs ->
    let s := ((if neg then [45%N] else []) ++ ds) ++ 46%N :: fs in isNum s = true /\ isIntText s = false.
  Proof.
    intros neg ds fs Hn HD H0 Hf HF s. assert (forall l, Forall digit l -> forallb isDigit l = true) as FB.
    { intros l Hl. apply forallb_forall; intros c Hc; rewrite Forall_forall in Hl; now apply isDigit_spec, Hl. }
    destruct ds as [|c r]; [contradiction|]. assert (digit c) as Hc by now inversion HD. pose proof (FB _ HD) as HB. cbn [forallb] in HB. apply andb_true_iff in HB as [HB1 HB2]. unfold digit in Hc.
    assert (N.eqb c 45 = false) as E45 by (apply N.eqb_neq; lia).
    assert (match (if N.eqb c 48 then Some (r ++ 46%N :: fs) else if isDigit c then Some (digitsThen (r ++ 46%N :: fs)) else None) with
                | None => false | Some [] => true
                | Some (d :: f) => N.eqb d 46 && (match f with [] => false | _ => true end) && forallb isDigit f end = true) as X.
    { assert (N.eqb 46 46 && (match fs with [] => false | _ => true end) && forallb isDigit fs = true) as Y by (rewrite (FB _ HF); destruct fs; [contradiction|reflexivity]).
      destruct (N.eqb c 48) eqn:E.
      - apply N.eqb_eq in E. subst. destruct r; [exact Y|]. exfalso. assert (length (48%N :: n :: r) = 1) by (apply H0; reflexivity). discriminate.
      - rewrite HB1, digitsThen_app by auto. cbn [digitsThen]. change (isDigit 46) with false. exact Y. }
    assert (forallb isDigit (c :: r ++ 46%N :: fs) = false) as Z.
    { cbn [forallb]. rewrite forallb_app. cbn [forallb]. change (isDigit 46) with false. now rewrite !andb_false_r. }
    subst s. destruct neg; cbn [app].
    - split; [exact X|]. unfold isIntText. cbn [N.eqb Pos.eqb]. exact Z.
    - unfold isNum, isIntText. rewrite E45. split; [exact X|exact Z].
  Qed.
  Lemma read_num : forall c r toks cur ws lf s sh T h ps, c = 45%N \/ digit c -> isNum (c :: r) = true -> at_word toks cur ((c :: r) :: ws) -> sc_mode s = MdValue ->
    reads (mk toks cur lf s sh T h ps) (mk toks cur lf s sh T h ps, c :: r, valueKind s, SNil).
  Proof.
    intros c r toks cur ws lf s sh T h ps HC HN HA HM. exists 1. intros [|f] Hf; [lia|]. cbn [getToken mk c_toks c_cur c_sub].
    rewrite (at_head _ _ _ _ HA). cbv zeta. destruct (opener_word c r) as (W1 & W2 & _); [unfold opener; tauto|]. rewrite W1, W2.
    unfold valueCheck. rewrite !quotedBy_other, HN; [now destruct (sc_mode s)| |]; unfold digit in HC; lia.
  Qed.
  Lemma num_first : forall (neg : bool) ds t, ds <> [] -> Forall digit ds -> exists c r, ((if neg then [45%N] else []) ++ ds) ++ t = c :: r /\ (c = 45%N \/ digit c).
  Proof. intros neg ds t H1 H2. destruct neg; [exists 45%N, (ds ++ t); auto|]. destruct ds as [|c r]; [contradiction|]. exists c, (r ++ t). inversion H2; auto. Qed.
  Lemma read_bool : forall b toks cur ws lf s sh T h ps, at_word toks cur (valText (SBool b) :: ws) ->
    reads (mk toks cur lf s sh T h ps) (mk toks cur lf (sBool s true) sh T h ps, valText (SBool b), if b then TkTrue else TkFalse, SNil).
  Proof.
    intros b toks cur ws lf s sh T h ps HA. exists 1. intros [|f] Hf; [lia|]. cbn [getToken mk c_toks c_cur c_sub].
    rewrite (at_head _ _ _ _ HA). destruct b; reflexivity.
  Qed.
  Lemma unfinished_words : forall q m l toks cur ws lf s sh T h ps out f, at_word toks cur ((m ++ [l ++ [q]]) ++ ws) ->
    Forall (fun w => without w [q]) m -> length m < f ->
    unfinished f (mk toks cur lf s sh T h ps) q out = Ok (mk toks (cur + length m) lf s sh T h ps, out ++ concat (map (fun w => 32%N :: w) (m ++ [l])), valueKind s, SNil).
  Proof.
    induction m as [|w m IH]; intros l toks cur ws lf s sh T h ps out f HA HW Hf; (destruct f as [|f]; [cbn in Hf; lia|]); cbn [unfinished mk c_toks c_cur c_depth].
    - cbn [app] in HA. rewrite (at_head _ _ _ _ HA). cbn [Nat.eqb negb andb]. cbn [c_toks c_cur mk]. rewrite (nth_error_nth _ _ _ (at_head _ _ _ _ HA)).
      rewrite hasSuffix_app, trimSuffix_app. cbn [length app map concat]. rewrite Nat.add_0_r, app_nil_r. reflexivity.
    - cbn [app] in HA. inversion HW as [|? ? H1 H2]; subst. rewrite (at_head _ _ _ _ HA). cbn [Nat.eqb negb andb]. cbn [c_toks c_cur mk]. rewrite (nth_error_nth _ _ _ (at_head _ _ _ _ HA)).
      rewrite (suffix_without _ _ _ H1) by now left. unfold withToks. cbn [mk c_toks c_cur c_advOnly c_lastField c_depth c_sub c_short c_tree c_head c_paths c_funcs].
      fold (mk toks (S cur) lf s sh T h ps). apply at_next in HA. rewrite (IH l _ _ ws) by (auto; cbn in Hf; lia).
      cbn [app map concat length]. rewrite <- !app_assoc. cbn [app]. do 4 f_equal. f_equal. lia.
  Qed.
  Lemma strText_concat : forall w r, strText (w :: r) = w ++ concat (map (fun w => 32%N :: w) r).
  Proof.
    unfold strText. intros w r. revert w. induction r as [|x r IH]; intros w; [cbn; now rewrite app_nil_r|].
    cbn [map concat]. change (joinBy [32%N] (w :: x :: r)) with (w ++ [32%N] ++ joinBy [32%N] (x :: r)). rewrite IH. reflexivity.
  Qed.
  Lemma read_str : forall d ws toks cur more lf s sh T h ps, valOk o (SStr d ws) -> at_word toks cur (valWords (SStr d ws) ++ more) -> sc_mode s = MdValue -> sc_opctx s <> MatchOp ->
    reads (mk toks cur lf s sh T h ps) (mk toks (cur + (length (valWords (SStr d ws)) - 1)) lf s sh T h ps, strText ws, TkValue, SNil).
  Proof.
    intros d ws toks cur more lf s sh T h ps (H1 & H2 & H3) HA HM HX.
    assert (valueKind s = TkValue) as HK by (unfold valueKind; destruct (sc_opctx s); congruence).
    destruct ws as [|w r].
    - cbn [valWords strWords length Nat.sub]. rewrite Nat.add_0_r, <- HK. apply (read_quoted d [] toks cur more); auto; intros X; contradiction.
    - cbn [valWords] in *. unfold strWords in *. destruct (rev r) as [|l m] eqn:ER.
      + apply (f_equal (@rev bytes)) in ER. rewrite rev_involutive in ER. cbn in ER. subst r. cbn [length Nat.sub]. rewrite Nat.add_0_r, <- HK.
        apply (read_quoted d w toks cur more); auto; intros X; contradiction.
      + apply (f_equal (@rev bytes)) in ER. rewrite rev_involutive in ER. cbn [rev] in ER. subst r.
        inversion H1 as [|? ? Hw Hr]; subst. inversion H2 as [|? ? Gw Gr]; subst.
        assert (without w [40; 41]%N) as Hp by (destruct (rev m); exact H3). clear H3.
        exists (S (S (length m))). intros [|f] Hf; [lia|]. cbn [getToken mk c_toks c_cur c_sub]. cbn [app] in HA. rewrite (at_head _ _ _ _ HA). cbv zeta.
        destruct (opener_word (quote d) w (quote_opener d)) as (W1 & W2 & W3 & W4). rewrite W1, W2.
        assert (hasSuffix (quote d :: w) [quote d] = false) as NS.
        { destruct (hasSuffix (quote d :: w) [quote d]) eqn:E; auto. apply hasSuffix_spec in E as [r E]. exfalso. destruct Hw as [Hw _].
          destruct (exists_last Hw) as (r' & c & ->). rewrite app_comm_cons in E. apply app_inj_tail in E as [_ ->].
          apply Forall_app in Gw as [_ Gw]. inversion Gw as [|? ? X ?]; subst. apply X. now left. }
        assert (valueCheck (quote d :: w) = VNot) as ->.
        { unfold valueCheck, quotedBy. rewrite (wordy_isNum (quote d :: w)).
          - destruct d; cbn [quote] in *; rewrite NS; destruct w; cbn [hasPrefix N.eqb Pos.eqb andb]; rewrite ?andb_false_r; reflexivity.
          - exists (quote d). split; [now left|]. destruct d; unfold digit; cbn; lia. }
        rewrite W3, W4. rewrite funcKey_quoted by (destruct d; [left|right]; destruct w; reflexivity).
        assert (hasByte (quote d :: w) 40 || hasByte (quote d :: w) 41 = false) as ->.
        { assert (without (quote d :: w) [40; 41]%N) as X by (constructor; [destruct d; cbn; intuition discriminate|auto]).
          rewrite !(hasByte_without _ _ _ X) by (cbn; tauto). reflexivity. }
        assert (unfinishedQuote (quote d :: w) = Some (quote d)) as ->.
        { unfold unfinishedQuote. destruct d; cbn [quote] in *; rewrite NS; destruct w; reflexivity. }
        rewrite HM. change (quote d :: w) with ([quote d] ++ w) at 1. rewrite trimPrefix_app. apply at_next in HA.
        unfold withToks. cbn [mk c_toks c_cur c_advOnly c_lastField c_depth c_sub c_short c_tree c_head c_paths c_funcs].
        fold (mk toks (S cur) lf s sh T h ps).
        rewrite (unfinished_words (quote d) (rev m) l toks (S cur) more); auto; [|now apply Forall_app in Gr as [? _]|rewrite rev_length; lia].
        rewrite <- strText_concat, HK. cbn [length]. rewrite app_length. cbn [length].
        match goal with |- Ok (mk _ ?a _ _ _ _ _ _, _, _, _) = Ok (mk _ ?b _ _ _ _ _ _, _, _, _) => assert (a = b) as -> by (unfold bytes; lia) end. reflexivity.
  Qed.
  Lemma int_out : forall neg ds, valOk o (SInt neg ds) -> outValue o ((if neg then [45%N] else []) ++ ds) = Ok (XValue (GInt (intVal neg ds))).
  Proof.
    intros neg ds (H1 & H2 & H3 & H4). destruct (isNum_int neg ds H1 H2 H3) as (E1 & E2 & E3). unfold outValue. rewrite E1, E2, E3.
    assert (((- 2 ^ 63 <=? intVal neg ds) && (intVal neg ds <? 2 ^ 63))%Z = true) as ->; auto.
    apply andb_true_iff. split; [apply Z.leb_le|apply Z.ltb_lt]; lia.
  Qed.
  Lemma dec_out : forall neg ds fs f, valOk o (SDec neg ds fs f) -> outValue o (((if neg then [45%N] else []) ++ ds) ++ 46%N :: fs) = Ok (XValue (GFloat f)).
  Proof.
    intros neg ds fs f (H1 & H2 & H3 & H4 & H5 & H6). destruct (isNum_dec neg ds fs H1 H2 H3 H4 H5) as (E1 & E2). unfold outValue. cbn [valText] in H6. rewrite E1, E2, H6. reflexivity.
  Qed.
  Lemma str_out : forall d ws, valOk o (SStr d ws) -> outValue o (strText ws) = Ok (XValue (GString (strText ws))).
  Proof.
    intros d ws (_ & _ & HV). unfold outValue. assert (isNum (strText ws) = false) as ->; auto. destruct ws as [|w [|w2 r]]; [reflexivity|now apply wordy_isNum|].
    apply wordy_isNum. exists 32%N. split; [|unfold digit; lia]. rewrite strText_concat. cbn [map concat]. apply in_or_app. right. now left.
  Qed.
  Lemma read_val : forall v toks cur more lf s sh T h ps, valOk o v -> at_word toks cur (valWords v ++ more) -> sc_mode s = MdValue -> sc_opctx s <> MatchOp ->
    exists d ty, reads (mk toks cur lf s sh T h ps)
      (mk toks (cur + (length (valWords v) - 1)) lf (match v with SBool _ => sBool s true | _ => s end) sh T h ps, d, ty, SNil)
      /\ ty = match v with SBool true => TkTrue | SBool false => TkFalse | _ => TkValue end
      /\ match v with SBool _ => True | _ => outValue o d = Ok (XValue (valGo v)) end.
  Proof.
    intros v toks cur more lf s sh T h ps HV HA HM HX. assert (valueKind s = TkValue) as HK by (unfold valueKind; destruct (sc_opctx s); congruence).
    destruct v as [neg ds|neg ds fs f|d ws|b].
    - cbn [valWords length Nat.sub] in *. rewrite Nat.add_0_r. exists (valText (SInt neg ds)), TkValue. split.
      { destruct HV as (H1 & H2 & H3 & H4). destruct (isNum_int neg ds H1 H2 H3) as (E1 & _ & _). cbn [valText] in *. destruct (num_first neg ds [] H1 H2) as (c & r & E & HC). rewrite app_nil_r in E.
        rewrite E in *. rewrite <- HK. eapply read_num; eauto. }
      split; auto. now apply int_out.
    - cbn [valWords length Nat.sub] in *. rewrite Nat.add_0_r. exists (valText (SDec neg ds fs f)), TkValue. pose proof HV as HV0. destruct HV as (H1 & H2 & H3 & H4 & H5 & H6).
      destruct (isNum_dec neg ds fs H1 H2 H3 H4 H5) as (E1 & E2). split; [|split; auto].
      { cbn [valText] in *. destruct (num_first neg ds (46%N :: fs) H1 H2) as (c & r & E & HC). rewrite E in *. rewrite <- HK. eapply read_num; eauto. }
      now apply dec_out.
    - exists (strText ws), TkValue. split; [eapply read_str; eauto|]. split; auto. now apply (str_out d).
    - cbn [valWords length Nat.sub] in *. rewrite Nat.add_0_r. exists (valText (SBool b)), (if b then TkTrue else TkFalse). split; [eapply read_bool; eauto|]. destruct b; auto.
  Qed.
End Parse.
