(** Proofs about the tokenizer model. *)
From Verif Require Import Base MTokenizer SJson.
From Coq Require Import String.
From Coq Require Import List NArith Arith Lia Bool.
From Coq Require Import ZifyBool ZifyN ZifyNat.
Import ListNotations.
Open Scope N_scope.

(** ** Reflecting the byte tests *)

Lemma isDigit_iff : forall c, isDigit c = true <-> digit c.
Proof. intro c. unfold isDigit, digit. lia. Qed.
Lemma isDigit19_iff : forall c, isDigit19 c = true <-> digit19 c.
Proof. intro c. unfold isDigit19, digit19. lia. Qed.
Lemma isHex_iff : forall c, isHex c = true <-> hexdig c.
Proof. intro c. unfold isHex, hexdig. lia. Qed.
Lemma skipsSpace_iff : forall c, skipsSpace c = true <-> ws_char c.
Proof. intro c. unfold skipsSpace, tokIsSpaceChar, ws_char. cbn [In]. lia. Qed.

Definition strtok (e : bool) : tok := if e then TEscString else TString.
Definition numtok (n : bool) : tok := if n then TNumber else TInteger.

Lemma refine_str : forall e n, refineTok TEscString e n = strtok e.
Proof. reflexivity. Qed.
Lemma refine_num : forall e n, refineTok TNumber e n = numtok n.
Proof. reflexivity. Qed.

(** What must follow a number for it to end there. *)
Definition num_stop (l : bytes) : Prop :=
  match l with
  | [] => True
  | c :: _ => ~ digit c /\ ~ In c [46; 101; 69]
  end.

(** ** Running the loop over known bytes *)

Ltac tkstep := cbn [dataLoop]; cbn [stepChar setsEscapes setsNonInteger orb].

Lemma loop_ws : forall w r p,
  ws w -> dataLoop (w ++ r) p p sBeginValue false false
          = dataLoop r (p + length w) (p + length w) sBeginValue false false.
Proof.
  induction w as [|c w IH]; intros r p H; cbn [app length].
  - now rewrite Nat.add_0_r.
  - inversion H; subst. tkstep. unfold actBeginValue.
    apply skipsSpace_iff in H2. rewrite H2. cbn [orb].
    rewrite IH by auto. f_equal; lia.
Qed.

Lemma loop_sbody : forall e b, sbody e b -> forall r p sp esc n,
  dataLoop (b ++ 34 :: r) p sp sInString esc n
  = SOk (strtok (esc || e)) sp (p + length b + 1).
Proof.
  induction 1; intros r p sp esc n; cbn [app length].
  - tkstep. cbn. rewrite !orb_false_r. f_equal. lia.
  - tkstep.
    replace (c =? 34) with false by lia. replace (c =? 92) with false by lia.
    replace (c <? 32) with false by lia.
    rewrite !orb_false_r, IHsbody. f_equal; lia.
  - tkstep.
    change (92 =? 34) with false. change (92 =? 92) with true. cbv iota.
    tkstep.
    replace (_ || _) with true by (cbn [In] in H; lia).
    rewrite !orb_false_r, !orb_true_r, IHsbody. cbn [orb]. f_equal; lia.
  - apply isHex_iff in H, H0, H1, H2.
    tkstep. change (92 =? 34) with false. change (92 =? 92) with true. cbv iota.
    tkstep. cbn -[dataLoop isHex]. tkstep. rewrite H. tkstep. rewrite H0.
    tkstep. rewrite H1. tkstep. rewrite H2.
    rewrite !orb_false_r, !orb_true_r, IHsbody. cbn [orb].
    f_equal. lia.
Qed.

Lemma loop_e0 : forall ds r p sp e n,
  Forall digit ds -> num_stop r ->
  dataLoop (ds ++ r) p sp sE0 e n = SOk (numtok n) sp (p + length ds).
Proof.
  induction ds as [|d ds IH]; intros r p sp e n H Hr; cbn [app length].
  - destruct r as [|c r]; cbn [dataLoop].
    + cbn. f_equal. lia.
    + destruct Hr as [Hd _]. cbn [stepChar setsEscapes setsNonInteger].
      destruct (isDigit c) eqn:E. { apply isDigit_iff in E. contradiction. }
      rewrite !orb_false_r. cbn. f_equal. lia.
  - inversion H; subst. tkstep. rewrite (proj2 (isDigit_iff d)) by auto.
    rewrite !orb_false_r. rewrite IH by auto. f_equal. lia.
Qed.

Lemma loop_exp : forall x r p sp e,
  exp_part x -> x <> [] -> num_stop r -> forall n s, In s [s0; s1; sDot0] ->
  dataLoop (x ++ r) p sp s e n = SOk TNumber sp (p + length x).
Proof.
  intros x r p sp e Hx Hne Hr n s Hs.
  assert (Hstart : forall c, In c [101; 69] -> stepChar s c = AGo sE
                              /\ setsEscapes s = false /\ setsNonInteger s = false).
  { intros c Hc. cbn [In] in Hs, Hc.
    destruct Hs as [<-|[<-|[<-|[]]]]; destruct Hc as [<-|[<-|[]]]; now cbn. }
  destruct Hx as [| c d ds Hc Hd Hds | c sg d ds Hc Hsg Hd Hds].
  - congruence.
  - destruct (Hstart c Hc) as (E1 & E2 & E3). cbn [app length dataLoop]. rewrite E1, E2, E3.
    cbn [stepChar setsEscapes setsNonInteger].
    replace ((d =? 43) || (d =? 45)) with false by (unfold digit in Hd; lia).
    unfold actESign. rewrite (proj2 (isDigit_iff d)) by auto.
    rewrite loop_e0 by auto. rewrite orb_true_r. cbn [numtok]. f_equal. lia.
  - destruct (Hstart c Hc) as (E1 & E2 & E3). cbn [app length dataLoop]. rewrite E1, E2, E3.
    cbn [stepChar setsEscapes setsNonInteger].
    replace ((sg =? 43) || (sg =? 45)) with true by (cbn [In] in Hsg; lia).
    cbn [dataLoop stepChar setsEscapes setsNonInteger].
    unfold actESign. rewrite (proj2 (isDigit_iff d)) by auto.
    rewrite loop_e0 by auto. rewrite !orb_false_r, orb_true_r. cbn [numtok]. f_equal. lia.
Qed.

Lemma stop_rewind : forall s r p sp e n,
  In s [s0; s1; sDot0] -> num_stop r ->
  dataLoop r p sp s e n = SOk (numtok n) sp p.
Proof.
  intros s r p sp e n Hs Hr. destruct r as [|c r].
  - cbn [In] in Hs. destruct Hs as [<-|[<-|[<-|[]]]]; reflexivity.
  - destruct Hr as [Hd Hc]. cbn [In] in Hc.
    destruct (isDigit c) eqn:E. { apply isDigit_iff in E. contradiction. }
    cbn [dataLoop].
    assert (stepChar s c = ARewind TNumber) as ->.
    { cbn [In] in Hs. destruct Hs as [<-|[<-|[<-|[]]]]; cbn [stepChar]; rewrite ?E; unfold act0;
      replace (c =? 46) with false by lia;
      replace ((c =? 101) || (c =? 69)) with false by lia; reflexivity. }
    cbn [In] in Hs. destruct Hs as [<-|[<-|[<-|[]]]]; cbn [setsEscapes setsNonInteger];
      rewrite !orb_false_r; reflexivity.
Qed.

Lemma loop_dot0 : forall ds x r p sp e n,
  Forall digit ds -> exp_part x -> num_stop r ->
  dataLoop (ds ++ x ++ r) p sp sDot0 e n
  = SOk (numtok (n || negb (match x with [] => true | _ => false end))) sp
        (p + length ds + length x).
Proof.
  induction ds as [|d ds IH]; intros x r p sp e n H Hx Hr; cbn [app length].
  - destruct x as [|c x'].
    + cbn [app]. rewrite stop_rewind by (cbn [In]; auto). cbn. rewrite orb_false_r. f_equal. lia.
    + rewrite loop_exp; try (cbn [In]; auto; discriminate).
      cbn [negb]. rewrite orb_true_r. cbn [numtok]. f_equal. lia.
  - inversion H; subst. tkstep. rewrite (proj2 (isDigit_iff d)) by auto.
    rewrite !orb_false_r. rewrite IH by auto. f_equal. lia.
Qed.

Definition nonempty (l : bytes) : bool := match l with [] => false | _ => true end.

Lemma loop_after_int : forall f x r p sp e n s,
  frac_part f -> exp_part x -> num_stop r -> In s [s0; s1] ->
  dataLoop (f ++ x ++ r) p sp s e n
  = SOk (numtok (n || nonempty (f ++ x))) sp (p + length f + length x).
Proof.
  intros f x r p sp e n s Hf Hx Hr Hs.
  destruct Hf as [| d ds Hd Hds].
  - cbn [app length]. destruct x as [|c x'].
    + cbn [app]. rewrite stop_rewind; [|cbn [In] in *; tauto|auto]. cbn. rewrite orb_false_r. f_equal. lia.
    + rewrite loop_exp; auto; try discriminate; [|cbn [In] in *; tauto].
      cbn [nonempty]. rewrite orb_true_r. cbn [numtok]. f_equal. lia.
  - cbn [app length dataLoop].
    assert (stepChar s 46 = AGo sDot /\ setsEscapes s = false /\ setsNonInteger s = false) as (-> & -> & ->).
    { cbn [In] in Hs. destruct Hs as [<-|[<-|[]]]; now cbn. }
    cbn [dataLoop stepChar setsEscapes setsNonInteger].
    rewrite (proj2 (isDigit_iff d)) by auto.
    rewrite loop_dot0 by auto. cbn [nonempty]. rewrite !orb_true_r. cbn [orb numtok].
    f_equal. lia.
Qed.

Lemma loop_s1 : forall ds f x r p sp e n,
  Forall digit ds -> frac_part f -> exp_part x -> num_stop r ->
  dataLoop (ds ++ f ++ x ++ r) p sp s1 e n
  = SOk (numtok (n || nonempty (f ++ x))) sp (p + length ds + length f + length x).
Proof.
  induction ds as [|d ds IH]; intros f x r p sp e n H Hf Hx Hr; cbn [app length].
  - rewrite loop_after_int by (auto; cbn [In]; auto). f_equal. lia.
  - inversion H; subst. tkstep. rewrite (proj2 (isDigit_iff d)) by auto.
    rewrite !orb_false_r. rewrite IH by auto. f_equal. lia.
Qed.

Lemma loop_nat_part : forall i f x r p sp e n s,
  nat_part i -> frac_part f -> exp_part x -> num_stop r -> In s [sBeginValue; sNeg] ->
  dataLoop (i ++ f ++ x ++ r) p sp s e n
  = SOk (numtok (n || nonempty (f ++ x))) sp (p + length i + length f + length x).
Proof.
  intros i f x r p sp e n s Hi Hf Hx Hr Hs.
  assert (setsEscapes s = false /\ setsNonInteger s = false) as (F1 & F2).
  { cbn [In] in Hs. destruct Hs as [<-|[<-|[]]]; now cbn. }
  destruct Hi as [| d ds Hd Hds]; cbn [app length dataLoop].
  - assert (stepChar s 48 = AGo s0) as -> by (cbn [In] in Hs; destruct Hs as [<-|[<-|[]]]; reflexivity).
    rewrite F1, F2, !orb_false_r, loop_after_int by (auto; cbn [In]; auto). f_equal. lia.
  - assert (stepChar s d = AGo s1) as ->.
    { pose proof (proj2 (isDigit19_iff d) Hd) as E. unfold digit19 in Hd.
      cbn [In] in Hs. destruct Hs as [<-|[<-|[]]]; cbn [stepChar]; unfold actBeginValue.
      - unfold skipsSpace, tokIsSpaceChar.
        replace (d <=? 32) with false by lia. cbn [andb].
        repeat match goal with |- context [d =? ?k] => replace (d =? k) with false by lia end.
        now rewrite E.
      - replace (d =? 48) with false by lia. now rewrite E. }
    rewrite F1, F2, !orb_false_r, loop_s1; auto. f_equal. lia.
Qed.

Lemma loop_number : forall i f x r p sp,
  int_part i -> frac_part f -> exp_part x -> num_stop r ->
  dataLoop (i ++ f ++ x ++ r) p sp sBeginValue false false
  = SOk (numtok (nonempty (f ++ x))) sp (p + length (i ++ f ++ x)).
Proof.
  intros i f x r p sp Hi Hf Hx Hr. rewrite !app_length.
  destruct Hi as [i Hi | i Hi].
  - rewrite loop_nat_part by (auto; cbn [In]; auto). cbn [orb]. f_equal. lia.
  - cbn [app dataLoop]. change (stepChar sBeginValue 45) with (AGo sNeg).
    cbn [setsEscapes setsNonInteger orb].
    rewrite loop_nat_part by (auto; cbn [In]; auto). cbn [orb length]. f_equal. lia.
Qed.

Lemma loop_lex : forall t l r p,
  lex t l -> (num_kind t -> num_stop r) ->
  dataLoop (l ++ r) p p sBeginValue false false = SOk t p (p + length l).
Proof.
  intros t l r p Hl Hr. destruct Hl; try (cbn -[Nat.add]; f_equal; cbn; lia).
  - cbn [app dataLoop]. change (stepChar sBeginValue 34) with (AGo sInString).
    cbn [setsEscapes setsNonInteger orb]. rewrite <- app_assoc. cbn [app].
    rewrite (loop_sbody _ _ H). cbn [orb strtok]. rewrite app_length || idtac.
    cbn [length]. rewrite app_length. cbn [length]. f_equal. lia.
  - cbn [app dataLoop]. change (stepChar sBeginValue 34) with (AGo sInString).
    cbn [setsEscapes setsNonInteger orb]. rewrite <- app_assoc. cbn [app].
    rewrite (loop_sbody _ _ H). cbn [orb strtok].
    cbn [length]. rewrite app_length. cbn [length]. f_equal. lia.
  - assert (num_stop r) by (apply Hr; cbn [num_kind In]; unfold num_kind; cbn; auto).
    pose proof (loop_number i [] [] r p p H fp_none ep_none H0) as L.
    cbn [app] in L. rewrite app_nil_r in L. exact L.
  - assert (num_stop r) by (apply Hr; unfold num_kind; cbn; auto).
    rewrite <- !app_assoc. rewrite loop_number by auto.
    destruct (f ++ e) eqn:E; [congruence|reflexivity].
Qed.

(** ** Completeness of one step *)

Lemma step_complete : forall data pos w t l r,
  skipn pos data = w ++ l ++ r ->
  ws w -> lex t l -> (num_kind t -> num_stop r) ->
  step data pos = SOk t (pos + length w) (pos + length w + length l).
Proof.
  intros data pos w t l r Hs Hw Hl Hr. unfold step.
  assert (l <> []) as Hne.
  { intros ->. inversion Hl; subst; try discriminate.
    - inversion H; subst; inversion H0.
    - destruct i; [|discriminate]. inversion H0; subst; inversion H3. }
  destruct (Nat.leb_spec (length data) pos) as [Hle|Hgt].
  - rewrite skipn_all2 in Hs by lia. symmetry in Hs. apply app_eq_nil in Hs as [_ Hs].
    apply app_eq_nil in Hs as [Hs _]. contradiction.
  - rewrite Hs, loop_ws by auto. now apply loop_lex.
Qed.

Lemma step_end : forall data pos,
  ws (skipn pos data) -> exists q, step data pos = SOk TEnd q (Nat.max pos (length data)) /\ q = Nat.max pos (length data).
Proof.
  intros data pos H. unfold step.
  destruct (Nat.leb_spec (length data) pos).
  - exists pos. rewrite Nat.max_l by lia. auto.
  - exists (length data). rewrite Nat.max_r by lia. split; auto.
    rewrite <- (app_nil_r (skipn pos data)), loop_ws by auto.
    cbn. rewrite skipn_length. f_equal; lia.
Qed.

(** ** Completeness over whole documents *)

Fixpoint wseq (l : list wtok) (tail : bytes) : Prop :=
  match l with
  | [] => True
  | (w, (t, x)) :: r =>
      ws w /\ lex t x /\ (num_kind t -> num_stop (wrender r ++ tail)) /\ wseq r tail
  end.

Lemma wseq_app : forall a b tail,
  wseq a (wrender b ++ tail) -> wseq b tail -> wseq (a ++ b) tail.
Proof.
  induction a as [|[w [t x]] a IH]; cbn; intros b tail Ha Hb; auto.
  destruct Ha as (H1 & H2 & H3 & H4). repeat split; auto.
  rewrite wrender_app, <- app_assoc. exact H3.
Qed.

Lemma num_stop_ws : forall w r, ws w -> num_stop r -> num_stop (w ++ r).
Proof.
  intros [|c w] r Hw Hr; auto. cbn. inversion Hw as [|? ? Hc _]; subst.
  unfold ws_char in Hc. cbn [In] in Hc. unfold digit. cbn [In].
  destruct Hc as [<-|[<-|[<-|[<-|[]]]]]; split; lia.
Qed.

Lemma ws_nil : ws [].
Proof. constructor. Qed.

Lemma num_stop_close_arr : forall w r, ws w -> num_stop ((w ++ [93]) ++ r).
Proof.
  intros. rewrite <- app_assoc. apply num_stop_ws; auto. cbn. unfold digit. lia.
Qed.
Lemma num_stop_close_obj : forall w r, ws w -> num_stop ((w ++ [125]) ++ r).
Proof.
  intros. rewrite <- app_assoc. apply num_stop_ws; auto. cbn. unfold digit. lia.
Qed.
Lemma num_stop_comma : forall w r r', ws w -> num_stop (((w ++ [44]) ++ r) ++ r').
Proof.
  intros. rewrite <- !app_assoc. apply num_stop_ws; auto. cbn. unfold digit. lia.
Qed.

Lemma key_not_num : forall t, key_kind t -> num_kind t -> False.
Proof. unfold key_kind, num_kind. cbn. intuition congruence. Qed.

Lemma wseq_wtoks : forall v, wf_cst v -> forall w tail,
  ws w -> num_stop tail -> wseq (wtoks w v) tail.
Proof.
  induction v as [t lx | es wcl IH | ms wcl IH] using cst_ind'; intros Hwf w tail Hw Ht.
  - destruct Hwf as [Hk Hl]. cbn. auto.
  - apply wf_arr in Hwf as [Hcl Hes]. rewrite wtoks_arr.
    cbn [wseq]. split; [auto|split; [constructor|split]].
    { unfold num_kind. cbn. intuition congruence. }
    assert (forall first, wseq (elts_toks first es ++ [(wcl, (TArrayEnd, [93]))]) tail) as G; [|apply G].
    induction es as [|e r IHr]; intro first.
    + cbn. split; [auto|split; [constructor|split; auto]].
      all: try (unfold num_kind; cbn; intuition congruence).
    + inversion IH as [|? ? IHe IHr']; subst. inversion Hes as [|? ? He Hr]; subst.
      destruct He as (Hwc & Hwl & Hv). cbn [elts_toks].
      rewrite <- !app_assoc. apply wseq_app.
      * destruct first; cbn; auto. split; [auto|split; [constructor|split; auto]].
        all: try (unfold num_kind; cbn; intuition congruence).
      * apply wseq_app.
        -- apply IHe; auto. rewrite wrender_app. cbn [wrender]. rewrite app_nil_r.
           destruct r as [|e' r'].
           ++ cbn [elts_toks wrender app]. now apply num_stop_close_arr.
           ++ rewrite (render_elts_cons false e' r' : wrender (elts_toks false (e' :: r')) = _).
              cbn [comma_text].
              rewrite <- (app_assoc _ (wcl ++ _)) || idtac. apply num_stop_comma.
              inversion Hr as [|? ? He' _]. now destruct He'.
        -- apply IHr; auto.
  - apply wf_obj in Hwf as [Hcl Hms]. rewrite wtoks_obj.
    cbn [wseq]. split; [auto|split; [constructor|split]].
    { unfold num_kind. cbn. intuition congruence. }
    assert (forall first, wseq (mems_toks first ms ++ [(wcl, (TObjectEnd, [125]))]) tail) as G; [|apply G].
    induction ms as [|m r IHr]; intro first.
    + cbn. split; [auto|split; [constructor|split; auto]].
      all: try (unfold num_kind; cbn; intuition congruence).
    + inversion IH as [|? ? IHm IHr']; subst. inversion Hms as [|? ? Hm Hr]; subst.
      destruct Hm as (Hwc & Hwk & Hwd & Hwv & Hkk & Hkx & Hv). cbn [mems_toks].
      rewrite <- !app_assoc. apply wseq_app.
      * destruct first; cbn; auto. split; [auto|split; [constructor|split; auto]].
        all: try (unfold num_kind; cbn; intuition congruence).
      * cbn [app wseq]. split; [auto|split; [auto|split]].
        { intro Hn. exfalso. eapply key_not_num; eauto. }
        split; [auto|split; [constructor|split]].
        { unfold num_kind. cbn. intuition congruence. }
        rewrite <- app_assoc. apply wseq_app.
        -- apply IHm; auto. rewrite wrender_app. cbn [wrender]. rewrite app_nil_r.
           destruct r as [|m' r'].
           ++ cbn [mems_toks wrender app]. now apply num_stop_close_obj.
           ++ rewrite (render_mems_cons false m' r' : wrender (mems_toks false (m' :: r')) = _).
              cbn [comma_text].
              rewrite <- (app_assoc _ (wcl ++ _)) || idtac. apply num_stop_comma.
              inversion Hr as [|? ? Hm' _]. now destruct Hm'.
        -- apply IHr; auto.
Qed.

(** [n] consecutive [Step] calls, stopping at the first error. *)
Fixpoint scan (n : nat) (t : tokenizer) : option (list (tok * bytes) * tokenizer) :=
  match n with
  | O => Some ([], t)
  | S m =>
      match tk_step t with
      | (None, _) => None
      | (Some kb, t') =>
          match scan m t' with
          | None => None
          | Some (l, t'') => Some (kb :: l, t'')
          end
      end
  end.

Lemma scan_wseq : forall l data pos tail,
  wseq l tail -> skipn pos data = wrender l ++ tail ->
  scan (length l) (Tkn data pos) = Some (map snd l, Tkn data (pos + length (wrender l))).
Proof.
  induction l as [|[w [t x]] r IH]; intros data pos tail Hseq Hs.
  - cbn. now rewrite Nat.add_0_r.
  - destruct Hseq as (Hw & Hl & Hn & Hr). cbn [wrender] in Hs. rewrite <- !app_assoc in Hs.
    cbn [length scan]. unfold tk_step. cbn [tk_data tk_pos].
    rewrite (step_complete data pos w t x _ Hs Hw Hl Hn).
    pose proof (skipn_skipn_app _ _ _ _ _ Hs) as Hs1.
    rewrite (slice_from_skipn _ _ _ _ Hs1).
    pose proof (skipn_skipn_app _ _ _ _ _ Hs1) as Hs2.
    rewrite (IH _ _ _ Hr Hs2). cbn [map snd wrender]. rewrite !app_length. do 3 f_equal. lia.
Qed.

Lemma scan_end : forall n data pos,
  (pos <= length data)%nat -> ws (skipn pos data) ->
  exists pos', scan n (Tkn data pos) = Some (repeat (TEnd, []) n, Tkn data pos')
    /\ (pos <= pos' <= length data)%nat.
Proof.
  induction n; intros data pos Hp Hw.
  - exists pos. cbn. split; auto; lia.
  - destruct (step_end data pos Hw) as (q & Hq & ->). rewrite Nat.max_r in Hq by lia.
    cbn [scan repeat]. unfold tk_step. cbn [tk_data tk_pos]. rewrite Hq.
    assert (ws (skipn (length data) data)) as Hw' by (rewrite skipn_all; constructor).
    destruct (IHn data (length data) ltac:(lia) Hw') as (pos' & -> & Hpos').
    exists pos'. unfold slice. rewrite Nat.sub_diag. cbn. split; auto. lia.
Qed.

Lemma num_stop_ws_tail : forall w, ws w -> num_stop w.
Proof. intros. rewrite <- (app_nil_r w). apply num_stop_ws; cbn; auto. Qed.

(** C01 *)
Lemma tokenize_complete : forall w1 v w2,
  ws w1 -> wf_cst v -> ws w2 ->
  exists t', scan (length (ctoks v)) (tk_reset (doc_text w1 v w2)) = Some (ctoks v, t')
    /\ forall n, exists t'', scan n t' = Some (repeat (TEnd, []) n, t'').
Proof.
  intros w1 v w2 H1 Hv H2. unfold ctoks, tk_reset, doc_text.
  assert (map snd (wtoks w1 v) = map snd (wtoks [] v)) as E by (destruct v; reflexivity).
  pose proof (wseq_wtoks v Hv w1 w2 H1 (num_stop_ws_tail _ H2)) as Hs.
  assert (skipn 0 (w1 ++ render v ++ w2) = wrender (wtoks w1 v) ++ w2) as Ht.
  { rewrite wtoks_lead, <- app_assoc. reflexivity. }
  pose proof (scan_wseq _ _ _ _ Hs Ht) as Hscan.
  rewrite <- E, map_length. eexists. split; [exact Hscan|].
  intro n. cbn [Nat.add].
  destruct (scan_end n (w1 ++ render v ++ w2) (length (wrender (wtoks w1 v)))) as (p' & Hp' & _).
  - rewrite wtoks_lead, !app_length. lia.
  - replace (skipn _ _) with w2; auto. symmetry. apply (skipn_skipn_app _ _ _ _ 0%nat). exact Ht.
  - eexists. exact Hp'.
Qed.

(** ** Soundness of one step *)

(** What a scanner state still accepts: the bytes [x] complete a token of kind
    [t]; [e]/[n] are the escape and non-integer flags so far. *)
Definition resid_str (e : bool) (t : tok) (x : bytes) : Prop :=
  exists e' b, x = b ++ [34] /\ sbody e' b /\ t = strtok (e || e').

Fixpoint resid_u (k : nat) (t : tok) (x : bytes) : Prop :=
  match k with
  | O => resid_str true t x
  | S k' => match x with c :: y => hexdig c /\ resid_u k' t y | [] => False end
  end.

Definition resid_e0 (n : bool) (t : tok) (x : bytes) : Prop :=
  Forall digit x /\ t = numtok n.
Definition resid_esign (n : bool) (t : tok) (x : bytes) : Prop :=
  exists d ds, x = d :: ds /\ digit d /\ Forall digit ds /\ t = numtok n.
Definition resid_e (t : tok) (x : bytes) : Prop :=
  t = TNumber /\ exists c, In c [101; 69] /\ exp_part (c :: x).

Definition resid (s : tstate) (e n : bool) (t : tok) (x : bytes) : Prop :=
  match s with
  | sInString => resid_str e t x
  | sInStringEsc =>
      match x with
      | c :: y => (In c [34; 92; 47; 98; 102; 110; 114; 116] /\ resid_str true t y)
                  \/ (c = 117 /\ resid_u 4 t y)
      | [] => False
      end
  | sInStringEscU => resid_u 4 t x
  | sInStringEscU1 => resid_u 3 t x
  | sInStringEscU12 => resid_u 2 t x
  | sInStringEscU123 => resid_u 1 t x
  | sNeg => exists i f ex, x = i ++ f ++ ex /\ nat_part i /\ frac_part f /\ exp_part ex
                           /\ t = numtok (n || nonempty (f ++ ex))
  | s0 => exists f ex, x = f ++ ex /\ frac_part f /\ exp_part ex /\ t = numtok (n || nonempty (f ++ ex))
  | s1 => exists ds f ex, x = ds ++ f ++ ex /\ Forall digit ds /\ frac_part f /\ exp_part ex
                          /\ t = numtok (n || nonempty (f ++ ex))
  | sDot => exists d ds ex, x = d :: ds ++ ex /\ digit d /\ Forall digit ds /\ exp_part ex /\ t = TNumber
  | sDot0 => exists ds ex, x = ds ++ ex /\ Forall digit ds /\ exp_part ex /\ t = numtok (n || nonempty ex)
  | sE => exp_part (101 :: x) /\ t = TNumber
  | sESign => resid_esign n t x
  | sE0 => resid_e0 n t x
  | sT => x = [114; 117; 101] /\ t = TTrue
  | sTr => x = [117; 101] /\ t = TTrue
  | sTru => x = [101] /\ t = TTrue
  | sF => x = [97; 108; 115; 101] /\ t = TFalse
  | sFa => x = [108; 115; 101] /\ t = TFalse
  | sFal => x = [115; 101] /\ t = TFalse
  | sFals => x = [101] /\ t = TFalse
  | sN => x = [117; 108; 108] /\ t = TNull
  | sNu => x = [108; 108] /\ t = TNull
  | sNul => x = [108] /\ t = TNull
  | sBeginValue => lex t x
  | _ => True
  end.

Definition strstate (s : tstate) (esc : bool) : Prop :=
  match s with
  | sInStringEscU | sInStringEscU1 | sInStringEscU12 | sInStringEscU123 => esc = true
  | _ => True
  end.

(** For the states reached from [sBeginValue] other than itself. *)
Definition inner (s : tstate) : Prop :=
  match s with
  | sBeginValueOrEmpty | sBeginValue | sBeginStringOrEmpty | sBeginString => False
  | _ => True
  end.

Lemma loop_sound : forall rest p sp s e n t a b,
  inner s -> strstate s e ->
  dataLoop rest p sp s e n = SOk t a b ->
  a = sp /\ exists x tail, rest = x ++ tail /\ b = (p + length x)%nat /\ resid s e n t x.
Proof.
  induction rest as [|c rest IH]; intros p sp s e n t a b Hi Hst H.
  - cbn in H. destruct s; cbn in H, Hi; try discriminate; try contradiction;
      inversion H; subst; (split; [reflexivity|]); exists [], [];
      (split; [reflexivity|]); (split; [cbn; lia|]); cbn.
    + exists [], []. rewrite orb_false_r. repeat split; constructor.
    + exists [], [], []. rewrite orb_false_r. repeat split; constructor.
    + exists [], []. rewrite orb_false_r. repeat split; constructor.
    + split; [constructor|reflexivity].
  - cbn [dataLoop] in H.
    destruct (stepChar s c) as [s' | | t' | t' | ] eqn:Es; try discriminate.
    + (* AGo *)
      assert (inner s') as Hi'.
      { destruct s; cbn in Es, Hi; try contradiction;
        repeat match type of Es with
        | context [if ?x then _ else _] => destruct x eqn:?
        end; unfold act0, actESign, expect in *;
        repeat match type of Es with
        | context [if ?x then _ else _] => destruct x eqn:?
        end; inversion Es; subst; exact I. }
      assert (strstate s' (e || setsEscapes s)) as Hst'.
      { destruct s; cbn in Es, Hi; try contradiction;
        repeat match type of Es with
        | context [if ?x then _ else _] => destruct x eqn:?
        end; unfold act0, actESign, expect in *;
        repeat match type of Es with
        | context [if ?x then _ else _] => destruct x eqn:?
        end; inversion Es; subst; cbn in *; subst; auto using orb_true_r. }
      destruct (IH _ _ _ _ _ _ _ _ Hi' Hst' H) as (-> & x & tail & -> & -> & Hx).
      split; auto. exists (c :: x), tail. split; [reflexivity|]. split; [cbn; lia|].
      clear IH H Hi' Hst'.
      destruct s; cbn [stepChar] in Es; cbn [inner] in Hi; try contradiction;
        cbn [setsEscapes setsNonInteger strstate] in *.
      * (* sInString *)
        destruct (c =? 34) eqn:E1; [discriminate|].
        destruct (c =? 92) eqn:E2.
        -- inversion Es; subst. apply N.eqb_eq in E2. subst c.
           cbn [resid] in *. destruct x as [|c' y]; [contradiction|].
           destruct Hx as [[Hc Hy]|[-> Hy]].
           ++ destruct Hy as (e' & b0 & -> & Hb & ->).
              exists true, (92 :: c' :: b0). split; [reflexivity|]. split.
              ** eapply sb_esc; eauto.
              ** now rewrite orb_true_r.
           ++ cbn [resid_u] in Hy.
              destruct y as [|h1 [|h2 [|h3 [|h4 y]]]]; try tauto.
              destruct Hy as (Hh1 & Hh2 & Hh3 & Hh4 & e' & b0 & -> & Hb & ->).
              exists true, (92 :: 117 :: h1 :: h2 :: h3 :: h4 :: b0). split; [reflexivity|]. split.
              ** eapply sb_u; eauto.
              ** now rewrite orb_true_r.
        -- destruct (c <? 32) eqn:E3; [discriminate|]. inversion Es; subst.
           cbn [resid] in *. rewrite orb_false_r in Hx.
           destruct Hx as (e' & b0 & -> & Hb & ->).
           exists e', (c :: b0). split; [reflexivity|]. split; [|reflexivity].
           constructor; auto; lia.
      * (* sInStringEsc *)
        cbn [resid]. rewrite orb_true_r in Hx.
        match type of Es with (if ?g then _ else _) = _ => destruct g eqn:E1 end.
        -- inversion Es; subst. left. split; auto. cbn [In]. lia.
        -- destruct (c =? 117) eqn:E2; inversion Es; subst. right. split; [lia|exact Hx].
      * destruct (isHex c) eqn:E; inversion Es; subst. apply isHex_iff in E. cbn [resid resid_u] in *. auto.
      * destruct (isHex c) eqn:E; inversion Es; subst. apply isHex_iff in E. cbn [resid resid_u] in *. auto.
      * destruct (isHex c) eqn:E; inversion Es; subst. apply isHex_iff in E. cbn [resid resid_u] in *. auto.
      * destruct (isHex c) eqn:E; inversion Es; subst. apply isHex_iff in E. cbn [resid resid_u] in *. auto.
      * (* sNeg *)
        rewrite !orb_false_r in Hx.
        destruct (c =? 48) eqn:E1.
        -- inversion Es; subst. apply N.eqb_eq in E1. subst. cbn [resid] in *.
           destruct Hx as (f & ex & -> & Hf & He & ->).
           exists [48], f, ex. repeat split; auto. constructor.
        -- destruct (isDigit19 c) eqn:E2; inversion Es; subst. apply isDigit19_iff in E2.
           cbn [resid] in *. destruct Hx as (ds & f & ex & -> & Hds & Hf & He & ->).
           exists (c :: ds), f, ex. repeat split; auto. now constructor.
      * (* s0 *)
        rewrite !orb_false_r in Hx. unfold act0 in Es.
        destruct (c =? 46) eqn:E1.
        -- inversion Es; subst. apply N.eqb_eq in E1. subst. cbn [resid] in *.
           destruct Hx as (d & ds & ex & -> & Hd & Hds & He & ->).
           exists (46 :: d :: ds), ex. repeat split; auto. { now constructor. }
           cbn. now rewrite orb_true_r.
        -- destruct ((c =? 101) || (c =? 69)) eqn:E2; inversion Es; subst. cbn [resid] in *.
           destruct Hx as [He ->]. exists [], (c :: x). repeat split; [constructor| |].
           ++ inversion He; subst; [constructor 2|constructor 3]; auto; cbn [In]; lia.
           ++ cbn. now rewrite orb_true_r.
      * unfold expect in Es. destruct (c =? 114) eqn:E; inversion Es; subst. cbn in *.
        destruct Hx as [-> ->]. split; auto. repeat f_equal; lia.
      * unfold expect in Es. destruct (c =? 117) eqn:E; inversion Es; subst. cbn in *.
        destruct Hx as [-> ->]. split; auto. repeat f_equal; lia.
      * unfold expect in Es. destruct (c =? 101) eqn:E; inversion Es.
      * unfold expect in Es. destruct (c =? 97) eqn:E; inversion Es; subst. cbn in *.
        destruct Hx as [-> ->]. split; auto. repeat f_equal; lia.
      * unfold expect in Es. destruct (c =? 108) eqn:E; inversion Es; subst. cbn in *.
        destruct Hx as [-> ->]. split; auto. repeat f_equal; lia.
      * unfold expect in Es. destruct (c =? 115) eqn:E; inversion Es; subst. cbn in *.
        destruct Hx as [-> ->]. split; auto. repeat f_equal; lia.
      * unfold expect in Es. destruct (c =? 101) eqn:E; inversion Es.
      * unfold expect in Es. destruct (c =? 117) eqn:E; inversion Es; subst. cbn in *.
        destruct Hx as [-> ->]. split; auto. repeat f_equal; lia.
      * unfold expect in Es. destruct (c =? 108) eqn:E; inversion Es; subst. cbn in *.
        destruct Hx as [-> ->]. split; auto. repeat f_equal; lia.
      * unfold expect in Es. destruct (c =? 108) eqn:E; inversion Es.
      * (* s1 *)
        rewrite !orb_false_r in Hx. destruct (isDigit c) eqn:E0.
        -- inversion Es; subst. apply isDigit_iff in E0. cbn [resid] in *.
           destruct Hx as (ds & f & ex & -> & Hds & Hf & He & ->).
           exists (c :: ds), f, ex. repeat split; auto.
        -- unfold act0 in Es. destruct (c =? 46) eqn:E1.
           ++ inversion Es; subst. apply N.eqb_eq in E1. subst. cbn [resid] in *.
              destruct Hx as (d & ds & ex & -> & Hd & Hds & He & ->).
              exists [], (46 :: d :: ds), ex. repeat split; auto. { now constructor. }
              cbn. now rewrite orb_true_r.
           ++ destruct ((c =? 101) || (c =? 69)) eqn:E2; inversion Es; subst. cbn [resid] in *.
              destruct Hx as [He ->]. exists [], [], (c :: x). repeat split; [constructor|constructor| |].
              ** inversion He; subst; [constructor 2|constructor 3]; auto; cbn [In]; lia.
              ** cbn. now rewrite orb_true_r.
      * (* sDot *)
        rewrite orb_true_r in Hx. destruct (isDigit c) eqn:E; inversion Es; subst.
        apply isDigit_iff in E. cbn [resid] in *.
        destruct Hx as (ds & ex & -> & Hds & He & ->).
        exists c, ds, ex. repeat split; auto; apply E.
      * (* sDot0 *)
        rewrite !orb_false_r in Hx. destruct (isDigit c) eqn:E.
        -- inversion Es; subst. apply isDigit_iff in E. cbn [resid] in *.
           destruct Hx as (ds & ex & -> & Hds & He & ->).
           exists (c :: ds), ex. repeat split; auto.
        -- destruct ((c =? 101) || (c =? 69)) eqn:E2; inversion Es; subst. cbn [resid] in *.
           destruct Hx as [He ->]. exists [], (c :: x). repeat split; [constructor| |].
           ++ inversion He; subst; [constructor 2|constructor 3]; auto; cbn [In]; lia.
           ++ cbn. now rewrite orb_true_r.
      * (* sE *)
        rewrite orb_true_r in Hx.
        destruct ((c =? 43) || (c =? 45)) eqn:E1.
        -- inversion Es; subst. cbn [resid] in *.
           destruct Hx as (d & ds & -> & Hd & Hds & ->). split; auto.
           constructor 3; auto; cbn [In]; [auto|lia].
        -- unfold actESign in Es. destruct (isDigit c) eqn:E; inversion Es; subst.
           apply isDigit_iff in E. cbn [resid] in *. destruct Hx as [Hds ->]. split; auto.
           constructor 2; auto. cbn [In]. auto.
      * (* sESign *)
        rewrite !orb_false_r in Hx. unfold actESign in Es.
        destruct (isDigit c) eqn:E; inversion Es; subst.
        apply isDigit_iff in E. cbn [resid] in *. destruct Hx as [Hds ->].
        exists c, x. auto.
      * (* sE0 *)
        rewrite !orb_false_r in Hx. destruct (isDigit c) eqn:E; inversion Es; subst.
        apply isDigit_iff in E. cbn [resid] in *. destruct Hx as [Hds ->]. split; auto.
    + (* ASkip *)
      exfalso. destruct s; cbn in Es, Hi; try contradiction;
      repeat match type of Es with
      | context [if ?x then _ else _] => destruct x eqn:?
      end; unfold act0, actESign, expect in *;
      repeat match type of Es with
      | context [if ?x then _ else _] => destruct x eqn:?
      end; inversion Es.
    + (* ABreak *)
      inversion H; subst a b. split; auto. exists [c], rest. split; auto. split; [cbn; lia|].
      destruct s; cbn in Es, Hi; try contradiction;
      repeat match type of Es with
      | context [if ?x then _ else _] => destruct x eqn:?
      end; unfold act0, actESign, expect in *;
      repeat match type of Es with
      | context [if ?x then _ else _] => destruct x eqn:?
      end; inversion Es; subst t'; cbn; try (split; [f_equal; lia | reflexivity]).
      exists false, []. cbn. split; [f_equal; lia|]. split; [constructor|reflexivity].
    + (* ARewind *)
      inversion H; subst a b. split; auto. exists [], (c :: rest). split; auto. split; [cbn; lia|].
      destruct s; cbn in Es, Hi; try contradiction;
      repeat match type of Es with
      | context [if ?x then _ else _] => destruct x eqn:?
      end; unfold act0, actESign, expect in *;
      repeat match type of Es with
      | context [if ?x then _ else _] => destruct x eqn:?
      end; inversion Es; subst t'; cbn; rewrite ?orb_false_r.
      * exists [], []. cbn. rewrite orb_false_r. repeat split; constructor.
      * exists [], [], []. cbn. rewrite orb_false_r. repeat split; constructor.
      * exists [], []. cbn. rewrite orb_false_r. repeat split; constructor.
      * split; constructor.
Qed.

Lemma int_part_lex : forall i f ex,
  int_part i -> frac_part f -> exp_part ex ->
  lex (numtok (nonempty (f ++ ex))) (i ++ f ++ ex).
Proof.
  intros i f ex Hi Hf He. destruct (f ++ ex) eqn:E.
  - apply app_eq_nil in E as [-> ->]. cbn. rewrite app_nil_r. now constructor.
  - cbn. rewrite <- E. constructor; auto. congruence.
Qed.

Lemma begin_sound : forall rest p t a b,
  dataLoop rest p p sBeginValue false false = SOk t a b ->
  exists w x tail, rest = w ++ x ++ tail /\ ws w /\ a = (p + length w)%nat
    /\ b = (a + length x)%nat /\ (lex t x \/ (t = TEnd /\ x = [] /\ tail = [])).
Proof.
  induction rest as [|c rest IH]; intros p t a b H.
  - cbn in H. inversion H; subst. exists [], [], []. cbn. repeat split; auto; try lia. constructor.
  - cbn [dataLoop stepChar setsEscapes setsNonInteger orb] in H.
    destruct (actBeginValue c) as [s' | | t' | t' | ] eqn:Es; try discriminate.
    + assert (inner s' /\ strstate s' false) as [Hi Hst].
      { unfold actBeginValue in Es.
        repeat match type of Es with
        | context [if ?x then _ else _] => destruct x eqn:?
        end; inversion Es; subst; split; exact I. }
      destruct (loop_sound _ _ _ _ _ _ _ _ _ Hi Hst H) as (-> & x & tail & -> & -> & Hx).
      exists [], (c :: x), tail. cbn [app length]. repeat split; try lia; [constructor|].
      left. unfold actBeginValue in Es.
      repeat match type of Es with
      | context [if ?x then _ else _] => destruct x eqn:?
      end; inversion Es; subst s'; cbn [resid] in Hx;
      repeat match goal with E : (c =? _) = true |- _ => apply N.eqb_eq in E; subst c end.
      * destruct Hx as (e' & b0 & -> & Hb & ->). destruct e'; cbn; now constructor.
      * destruct Hx as (i & f & ex & -> & Hi' & Hf & He & ->). cbn [orb].
        change (45 :: i ++ f ++ ex) with ((45 :: i) ++ f ++ ex). apply int_part_lex; auto. now constructor.
      * destruct Hx as (f & ex & -> & Hf & He & ->). cbn [orb].
        change (48 :: f ++ ex) with ([48] ++ f ++ ex). apply int_part_lex; auto. repeat constructor.
      * destruct Hx as [-> ->]. constructor.
      * destruct Hx as [-> ->]. constructor.
      * destruct Hx as [-> ->]. constructor.
      * destruct Hx as (ds & f & ex & -> & Hds & Hf & He & ->). cbn [orb].
        match goal with E : isDigit19 c = true |- _ => apply isDigit19_iff in E end.
        change (c :: ds ++ f ++ ex) with ((c :: ds) ++ f ++ ex). apply int_part_lex; auto.
        constructor. now constructor.
    + destruct (IH _ _ _ _ H) as (w & x & tail & -> & Hw & -> & -> & Hl).
      exists (c :: w), x, tail. cbn [app length]. repeat split; auto; try lia.
      constructor; auto. apply skipsSpace_iff. unfold actBeginValue in Es.
      destruct (skipsSpace c); auto.
      repeat match type of Es with
      | context [if ?x then _ else _] => destruct x eqn:?
      end; inversion Es.
    + inversion H; subst a b t. exists [], [c], rest. cbn. repeat split; try lia; [constructor|].
      left. unfold actBeginValue in Es.
      repeat match type of Es with
      | context [if ?x then _ else _] => destruct x eqn:?
      end; inversion Es; subst t';
      repeat match goal with E : (c =? _) = true |- _ => apply N.eqb_eq in E; subst c end; constructor.
    + exfalso. unfold actBeginValue in Es.
      repeat match type of Es with
      | context [if ?x then _ else _] => destruct x eqn:?
      end; inversion Es.
Qed.

(** C02, C03: what a successful step on arbitrary bytes means. *)
Lemma step_sound : forall data pos t a b,
  (pos <= length data)%nat ->
  step data pos = SOk t a b ->
  exists w x tail, skipn pos data = w ++ x ++ tail /\ ws w /\ a = (pos + length w)%nat
    /\ b = (a + length x)%nat /\ slice data a b = x
    /\ (lex t x \/ (t = TEnd /\ x = [] /\ tail = [])).
Proof.
  intros data pos t a b Hp H. unfold step in H.
  destruct (Nat.leb_spec (length data) pos) as [Hle|Hgt].
  - inversion H; subst. exists [], [], []. rewrite skipn_all2 by lia. cbn.
    repeat split; try lia; [constructor| |auto].
    unfold slice. now rewrite Nat.sub_diag.
  - destruct (begin_sound _ _ _ _ _ H) as (w & x & tail & E & Hw & -> & -> & Hl).
    exists w, x, tail. repeat split; auto.
    pose proof (skipn_skipn_app _ _ _ _ _ E) as E1. eapply slice_from_skipn. exact E1.
Qed.

Lemma lex_nonempty : forall t x, lex t x -> x <> [].
Proof.
  intros t x H E. subst. inversion H; subst; try discriminate.
  - inversion H0; subst; inversion H1.
  - destruct i; [|discriminate]. inversion H1; subst; inversion H4.
Qed.

Lemma lex_not_end : forall x, ~ lex TEnd x.
Proof. intros x H. inversion H. Qed.

Lemma step_progress : forall data pos t a b,
  (pos <= length data)%nat ->
  step data pos = SOk t a b ->
  (pos <= a <= b)%nat /\ (b <= length data)%nat /\ (t <> TEnd -> pos < b)%nat /\ (t = TEnd -> b = length data).
Proof.
  intros data pos t a b Hp H.
  destruct (step_sound _ _ _ _ _ Hp H) as (w & x & tail & E & Hw & -> & -> & _ & Hl).
  assert (length data = pos + length (w ++ x ++ tail))%nat as Hlen.
  { rewrite <- E, skipn_length. lia. }
  rewrite !app_length in Hlen. repeat split; try lia.
  - intro Hne. destruct Hl as [Hl|[-> _]]; [|congruence].
    apply lex_nonempty in Hl. destruct x; [congruence|cbn; lia].
  - intros ->. destruct Hl as [Hl|(_ & -> & ->)]; [now apply lex_not_end in Hl|]. cbn in *. lia.
Qed.

(** ** Locality *)

Lemma loop_shift : forall rest p sp s e n k,
  dataLoop rest (p + k) (sp + k) s e n =
  match dataLoop rest p sp s e n with
  | SOk t a b => SOk t (a + k) (b + k)
  | SErr => SErr
  end.
Proof.
  induction rest as [|c rest IH]; intros; cbn [dataLoop].
  - destruct (atEnd s); reflexivity.
  - destruct (stepChar s c); try reflexivity.
    + apply (IH (S p)).
    + apply (IH (S p) (S p)).
Qed.

(** The result of a step depends only on the remaining bytes, up to the offset. *)
Lemma step_local : forall data pos,
  step data pos =
  match step (skipn pos data) 0 with
  | SOk t a b => SOk t (a + pos) (b + pos)
  | SErr => SErr
  end.
Proof.
  intros data pos. unfold step. rewrite skipn_length.
  destruct (Nat.leb_spec (length data) pos).
  - replace (length data - pos)%nat with 0%nat by lia. cbn. reflexivity.
  - replace (length data - pos <=? 0)%nat with false by (symmetry; apply Nat.leb_gt; lia).
    cbn [skipn]. apply (loop_shift (skipn pos data) 0%nat 0%nat).
Qed.

(** Re-reading from the reported start of a token gives the same token. *)
Lemma loop_restart : forall rest p t a b,
  dataLoop rest p p sBeginValue false false = SOk t a b -> (p <= a)%nat ->
  dataLoop (skipn (a - p) rest) a a sBeginValue false false = SOk t a b.
Proof.
  induction rest as [|c rest IH]; intros p t a b H Hp.
  - cbn in *. inversion H; subst. now rewrite Nat.sub_diag.
  - destruct (Nat.eq_dec a p) as [->|Hne].
    { rewrite Nat.sub_diag. exact H. }
    pose proof H as H0.
    cbn [dataLoop stepChar setsEscapes setsNonInteger orb] in H.
    destruct (actBeginValue c) as [s' | | t' | t' | ] eqn:Es; try discriminate.
    + assert (inner s' /\ strstate s' false) as [Hi Hst].
      { unfold actBeginValue in Es.
        repeat match type of Es with
        | context [if ?x then _ else _] => destruct x eqn:?
        end; inversion Es; subst; split; exact I. }
      destruct (loop_sound _ _ _ _ _ _ _ _ _ Hi Hst H) as (-> & _). lia.
    + destruct (begin_sound _ _ _ _ _ H) as (w & x & tail & _ & _ & -> & _).
      replace (S p + length w - p)%nat with (S (S p + length w - S p))%nat by lia.
      cbn [skipn]. apply IH; auto. lia.
    + inversion H; subst. lia.
    + inversion H; subst. lia.
Qed.

Lemma step_restart : forall data pos t a b,
  (pos <= length data)%nat ->
  step data pos = SOk t a b -> step data a = SOk t a b.
Proof.
  intros data pos t a b Hp H.
  destruct (step_progress _ _ _ _ _ Hp H) as ((Hp1 & Hab) & Hbl & Hne & Hend).
  unfold step in *. destruct (Nat.leb_spec (length data) pos) as [Hle|Hgt].
  - inversion H; subst.
    match goal with |- context [Nat.leb ?x ?y] => destruct (Nat.leb_spec x y); [reflexivity|lia] end.
  - apply loop_restart in H; auto.
    rewrite skipn_add in H. replace (pos + (a - pos))%nat with a in H by lia.
    destruct (Nat.leb_spec (length data) a) as [Hla|Hla]; auto.
    rewrite skipn_all2 in H by lia. cbn in H. exact H.
Qed.

(** ** C03 for whole scans *)
Lemma scan_bound : forall n data pos l t',
  (pos <= length data)%nat ->
  scan n (Tkn data pos) = Some (l, t') -> ~ In TEnd (map fst l) ->
  (n + pos <= length data)%nat /\ tk_data t' = data /\ (tk_pos t' <= length data)%nat.
Proof.
  induction n as [|n IH]; intros data pos l t' Hp H Hl.
  - cbn in H. inversion H; subst. cbn. repeat split; lia.
  - cbn [scan] in H. unfold tk_step in H. cbn [tk_data tk_pos] in H.
    destruct (step data pos) as [t a b|] eqn:E; [|discriminate].
    destruct (scan n (Tkn data b)) as [[l' t'']|] eqn:E2; [|discriminate].
    inversion H; subst. cbn [map fst In] in Hl.
    destruct (step_progress _ _ _ _ _ Hp E) as (P1 & P2 & P3 & P4).
    destruct (IH data b l' t' P2 E2) as (Q1 & Q2 & Q3); [tauto|].
    repeat split; auto. assert (t <> TEnd) as Ht by tauto. specialize (P3 Ht). lia.
Qed.

(** ** C04 on the object: arbitrary intervening calls *)
Inductive tk_op := OpStep | OpSeek (p : nat).
Definition tk_do (t : tokenizer) (o : tk_op) : tokenizer :=
  match o with OpStep => snd (tk_step t) | OpSeek p => tk_seek t p end.

Lemma tk_do_data : forall ops t, tk_data (fold_left tk_do ops t) = tk_data t.
Proof.
  induction ops as [|o ops IH]; intro t; cbn; auto. rewrite IH.
  destruct o; cbn; auto. unfold tk_step. destruct (step (tk_data t) (tk_pos t)); reflexivity.
Qed.

Lemma seek_replays : forall ops t,
  tk_step (tk_seek (fold_left tk_do ops t) (tk_position t)) = tk_step t.
Proof.
  intros ops t. unfold tk_seek, tk_position. rewrite tk_do_data. now destruct t.
Qed.
