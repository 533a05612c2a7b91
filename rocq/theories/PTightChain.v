(** Simple filters with other spacing: the whole chain. *)
From Coq Require Import String.
From Verif Require Import Base MTokenizer MLit MFastVal MMath MBinTree SEvents MExpr MExprJson MText MSimple SUnicode SSimple STight
  PSimpleWords PSimpleField PSimple PSimpleCall PSimpleChain PSimpleFuel PTight.
From Coq Require Import List NArith ZArith Arith Lia Bool.
Import ListNotations.
Open Scope nat_scope.

(** ** The words of a test *)
Lemma symbol_words : forall t op vs, symbolOf t = Some (op, vs) -> testWords t = op :: vs /\ In op symOps.
Proof.
  intros [k v|k c|[] d re| | | |] op vs H; try discriminate H; injection H as <- <-; (split; [reflexivity|]); try (destruct k; cbn; tauto). cbn. tauto.
Qed.
Lemma clean_from : forall s, noOps s -> without s [33; 38; 124; 126]%N -> clean s.
Proof.
  intros s HN HW. apply Forall_forall. intros c Hc HI.
  assert (In c [33; 38; 124; 126]%N \/ In c [60; 61; 62]%N) as [H|H] by (cbn in HI |- *; tauto).
  - eapply without_in; eauto.
  - apply in_split in Hc as (a & b & ->). apply (HN [c] a b); [|reflexivity]. cbn in H. destruct H as [<- | [<- | [<- | []]]]; cbn; tauto.
Qed.
Lemma subj_head : forall o a, subjOk o a -> ~ In (hd 0%N (argText a)) [40; 41]%N.
Proof.
  intros o [[p|v]|n f r] H; [|destruct H|].
  - destruct H as (_ & _ & _ & [Hn _] & HW & _). cbn [argText leafText]. destruct (pathText p) as [|c w] eqn:E; [contradiction|]. inversion HW; auto.
  - destruct H as (HN & _). cbn [argText].
    assert (In n (map fst (funs1 ++ funs2))) as HI by (rewrite map_app; apply in_or_app; tauto).
    assert (forallb (fun n => match n with [] => false | c :: _ => negb (N.eqb c 40) && negb (N.eqb c 41) end) (map fst (funs1 ++ funs2)) = true) as X by reflexivity.
    rewrite forallb_forall in X. specialize (X n HI). destruct n as [|c n]; [discriminate|]. cbn [app hd]. apply andb_true_iff in X as [X1 X2].
    apply negb_true_iff in X1, X2. apply N.eqb_neq in X1, X2. cbn. intuition.
Qed.
Lemma suffix_of : forall a c d, hasSuffix (a ++ [c]) [d] = N.eqb d c.
Proof. intros a c d. unfold hasSuffix. rewrite rev_app_distr. cbn [rev app hasPrefix]. destruct (rev a); now rewrite andb_true_r. Qed.
Lemma opener_sym : forall c, opener c -> ~ In c syms.
Proof. intros c H HI. unfold opener, digit in H. cbn in HI. intuition (subst; lia). Qed.
Lemma after_fits : forall o t op v vs, testOk o t -> symbolOf t = Some (op, v :: vs) -> match t with TCall _ _ => False | _ => True end ->
  v <> [] /\ ~ In (hd 0%N v) syms /\ hasSuffix v [40%N] = false /\ hasSuffix v [41%N] = false.
Proof.
  intros o t op v vs HT HE HC.
  assert (forall d w, let u := [quote d] ++ w ++ [quote d] in u <> [] /\ ~ In (hd 0%N u) syms /\ hasSuffix u [40%N] = false /\ hasSuffix u [41%N] = false) as Q.
  { intros d w u. unfold u. split; [discriminate|]. split; [apply opener_sym, quote_opener|]. rewrite app_assoc, !suffix_of. destruct d; split; reflexivity. }
  destruct t as [k w|k c|[] d re| | | |]; try discriminate HE; [|destruct HC|].
  - cbn [symbolOf] in HE. destruct HT as [HV _]. assert (exists x, valWords w = v :: vs) as [_ EW] by (exists tt; congruence). clear HE.
    assert (forall ds a, ds <> [] -> Forall digit ds -> hasSuffix (a ++ ds) [40%N] = false /\ hasSuffix (a ++ ds) [41%N] = false) as D.
    { intros ds a Hn HD. destruct (exists_last Hn) as (r & c & ->). apply Forall_app in HD as [_ HD]. inversion HD as [|? ? Hc _]; subst. rewrite app_assoc, !suffix_of. unfold digit in Hc.
      split; apply N.eqb_neq; lia. }
    destruct w as [neg ds|neg ds fs f|d ws|b].
    + destruct HV as (H1 & H2 & _). cbn [valWords valText] in EW. injection EW as <- <-. destruct (num_first neg ds [] H1 H2) as (c & r & E & HC2). rewrite app_nil_r in E.
      split; [rewrite E; discriminate|]. split; [rewrite E; apply opener_sym; unfold opener; cbn [hd]; tauto|]. now apply D.
    + destruct HV as (H1 & H2 & _ & H3 & H4 & _). cbn [valWords valText] in EW. injection EW as <- <-. destruct (num_first neg ds (46%N :: fs) H1 H2) as (c & r & E & HC2).
      split; [rewrite E; discriminate|]. split; [rewrite E; apply opener_sym; unfold opener; cbn [hd]; tauto|].
      change (46%N :: fs) with ([46%N] ++ fs). rewrite app_assoc. now apply D.
    + destruct HV as (H1 & H2 & H3). cbn [valWords] in EW. unfold strWords in EW. destruct ws as [|w r]; [injection EW as <- <-; apply (Q d [])|].
      destruct (rev r) as [|l m] eqn:ER; [injection EW as <- <-; apply (Q d w)|]. injection EW as <- _.
      assert (without w [40; 41]%N) as HW by (destruct r; [discriminate ER|exact H3]).
      split; [discriminate|]. split; [apply opener_sym, quote_opener|]. assert (without ([quote d] ++ w) [40; 41]%N) as X by (constructor; [destruct d; cbn; intuition discriminate|auto]).
      split; eapply suffix_without; eauto; cbn; tauto.
    + cbn [valWords valText] in EW. injection EW as <- <-. destruct b; (split; [discriminate|]); (split; [cbn; intuition discriminate|split; reflexivity]).
  - injection HE as <- <- <-. apply Q.
Qed.
Lemma fused_before : forall o s op v, subjOk o s -> noOps (argText s) -> without (argText s) [33; 38; 124; 126]%N -> In op symOps ->
  (v <> [] -> ~ In (hd 0%N v) syms) -> hasSuffix v [40%N] = false /\ hasSuffix v [41%N] = false -> fused (argText s) op v.
Proof.
  intros o s op v HS HN HW HO HV HE. constructor; auto; [now apply clean_from|eapply subj_head; eauto|]. left.
  destruct s as [[p|x]|n f r]; [apply HS|destruct HS|]. pose proof (arg_solid _ _ HS) as [X _]. exact X.
Qed.
Lemma fused_after : forall op v, In op symOps -> v <> [] -> ~ In (hd 0%N v) syms -> hasSuffix v [40%N] = false /\ hasSuffix v [41%N] = false -> fused [] op v.
Proof.
  intros op v HO HV H1 H2. constructor; auto; [constructor| |cbn; intuition discriminate]. intros x a b Hx E. destruct (opTexts_kinds _ Hx) as [Hx1 _].
  destruct a; [destruct x; [contradiction|discriminate]|discriminate].
Qed.

Section Tight.
  Variable o : oracles.
  Lemma piece_one : forall s : bytes, s <> [] -> piece s = [s].
  Proof. intros [|c s] H; [contradiction|reflexivity]. Qed.
  (** Four ways to write a test. *)
  Lemma tight_cases : forall g a, atomOk o a -> spacingOk g a ->
    tightWords g a = atomWords a
    \/ (exists (s op v : bytes) (vs : list bytes) (k : bytes), tightWords g a = (s ++ op ++ v) :: vs /\ fused s op v /\ atomWords a = (piece s ++ op :: piece v) ++ vs /\ k = argText (a_subj a) /\ k <> [])
    \/ (exists (op v : bytes) (vs : list bytes), tightWords g a = argText (a_subj a) :: (op ++ v) :: vs /\ fused [] op v /\ atomWords a = argText (a_subj a) :: (op :: piece v) ++ vs).
  Proof.
    intros g a [HS HT] [HB HA]. unfold tightWords. destruct (symbolOf (a_test a)) as [[op [|v vs]]|] eqn:E; auto.
    destruct (symbol_words _ _ _ E) as [EW HO]. unfold atomWords. rewrite EW.
    assert (argText (a_subj a) <> []) as Hne by (destruct (a_subj a) as [[p|x]|n f r]; [apply HS|destruct HS|exact (proj1 (arg_solid _ _ HS))]).
    destruct (sp_before g), (sp_after g).
    - now left.
    - right; right. destruct (after_fits _ _ _ _ _ HT E (HA eq_refl)) as (V1 & V2 & V3). exists op, v, vs. rewrite piece_one by auto. split; [reflexivity|]. split; [now apply fused_after|reflexivity].
    - right; left. destruct (HB eq_refl) as [N1 N2]. exists (argText (a_subj a)), op, [], (v :: vs), (argText (a_subj a)). rewrite app_nil_r, piece_one by auto. split; [reflexivity|].
      split; [eapply fused_before; eauto; intro X; contradiction X; reflexivity|]. split; [reflexivity|auto].
    - right; left. destruct (HB eq_refl) as [N1 N2]. destruct (after_fits _ _ _ _ _ HT E (HA eq_refl)) as (V1 & V2 & V3). exists (argText (a_subj a)), op, v, vs, (argText (a_subj a)).
      rewrite !piece_one by auto. split; [reflexivity|]. split; [eapply fused_before; eauto|]. split; [reflexivity|auto].
  Qed.
  Lemma at_atom : forall (pre post : list bytes) a, at_word (pre ++ atomWords a ++ post) (length pre) (argText (a_subj a) :: testWords (a_test a) ++ post).
  Proof. intros pre post a. exists pre, []. rewrite app_nil_r. split; reflexivity. Qed.
  Lemma tight_go : forall g a (pre post : list bytes) lf one sh T h ps R, atomOk o a -> spacingOk g a ->
    parses o (mk (pre ++ atomWords a ++ post) (length pre) lf (newSub one) sh T h ps) R -> parses o (mk (pre ++ tightWords g a ++ post) (length pre) lf (newSub one) sh T h ps) R.
  Proof.
    intros g a pre post lf one sh T h ps R HO HG HP. destruct (tight_cases g a HO HG) as [-> | [(s & op & v & vs & k & -> & HF & EA & _ & _)|(op & v & vs & ET & HF & EA)]]; auto.
    - rewrite EA in HP. cbn [app]. rewrite <- app_assoc in HP. eapply parses_same; [|exact HP]. intro f. apply get_split; [exact HF|discriminate].
    - pose proof HO as [HS HT]. set (su := a_subj a) in *.
      assert (forall tk tl, tk = pre ++ argText su :: tl -> reads o (mk tk (length pre) lf (newSub one) sh T h ps) (mk tk (length pre) (subjField lf su) (sFunc (newSub one) (subjFunc su)) sh T h ps, subjData su, subjType su, SNil)) as RS.
      { intros tk tl ->. eapply (read_subj o su); [exact HS|exists pre, []; rewrite app_nil_r; split; reflexivity|reflexivity|reflexivity]. }
      set (st := fun tk => mk tk (S (length pre)) (subjField lf su) (sb MdOp NoOp false (Some (length T)) (Some (length T)) None None one) sh (T ++ [subjNode su None]) h (subjIn (length T) lf su ++ ps)).
      rewrite ET. apply (parses_insert o _ _ _ _ _ _ (st (pre ++ argText su :: (op ++ v) :: vs ++ post)) R (RS _ _ eq_refl) (type_subj _ _ _ _ _ _ _ _ _ _) (ins_subj _ _ _ _ _ _ _ _ _) eq_refl).
      rewrite EA in HP. apply (parses_back o _ _ _ _ _ _ (st (pre ++ argText su :: ((op :: piece v) ++ vs) ++ post)) R (RS _ _ eq_refl) (type_subj _ _ _ _ _ _ _ _ _ _) (ins_subj _ _ _ _ _ _ _ _ _) eq_refl) in HP.
      eapply parses_same; [|exact HP]. intro f. unfold st. assert (S (length pre) = length (pre ++ [argText su])) as EL by (rewrite app_length; cbn [length]; lia).
      assert (forall X, pre ++ argText su :: X = (pre ++ [argText su]) ++ X) as EP by (intro X; now rewrite <- app_assoc). rewrite (EP ((op ++ v) :: vs ++ post)), (EP (((op :: piece v) ++ vs) ++ post)), EL, <- (app_assoc (op :: piece v)).
      apply (get_split o [] op v (pre ++ [argText su]) (vs ++ post)); [exact HF|discriminate].
  Qed.
  Lemma tight_read : forall g a (pre post : list bytes) lf u sh T h ps, atomOk o a -> spacingOk g a -> sc_mode u = MdField -> sFunc u None = u ->
    exists toks1, reads o (mk (pre ++ tightWords g a ++ post) (length pre) lf u sh T h ps)
        (mk toks1 (length pre) (subjField lf (a_subj a)) (sFunc u (subjFunc (a_subj a))) sh T h ps, subjData (a_subj a), subjType (a_subj a), SNil)
      /\ forall one lf3 T3 h3 ps3 R, parses o (mk (pre ++ atomWords a ++ post) (length pre) lf3 (newSub one) sh T3 h3 ps3) R -> parses o (mk toks1 (length pre) lf3 (newSub one) sh T3 h3 ps3) R.
  Proof.
    intros g a pre post lf u sh T h ps HO HG HM HU. pose proof HO as [HS _]. destruct (tight_cases g a HO HG) as [E | [(s & op & v & vs & k & E & HF & EA & _ & _)|(op & v & vs & ET & HF & EA)]].
    - rewrite E. exists (pre ++ atomWords a ++ post). split; auto. eapply read_subj; eauto. apply at_atom.
    - exists (pre ++ atomWords a ++ post). split; auto. rewrite E. cbn [app]. apply reads_split; [exact HF|congruence|].
      assert (pre ++ atomWords a ++ post = pre ++ (piece s ++ op :: piece v) ++ vs ++ post) as EQ by (rewrite EA, <- app_assoc; reflexivity). rewrite <- EQ.
      eapply read_subj; eauto. apply at_atom.
    - exists (pre ++ tightWords g a ++ post). split; [|intros; now apply tight_go]. rewrite ET. eapply read_subj; eauto. exists pre, []. rewrite app_nil_r. split; reflexivity.
  Qed.
  Lemma skip_split : forall (toks : list bytes) cur w ws, skipn cur toks = w :: ws -> exists pre, toks = pre ++ ws /\ S cur = length pre.
  Proof.
    intros toks cur w ws E. destruct (skip_at _ _ _ _ E) as (pre & post & E1 & E2). assert (post = []) as ->.
    { rewrite E1, E2, skipn_app, skipn_all, Nat.sub_diag in E. cbn [skipn app] in E. injection E as E. apply (f_equal (@length bytes)) in E. rewrite app_length in E. destruct post; [auto|cbn in E; lia]. }
    exists (pre ++ [w]). rewrite app_nil_r in E1. rewrite <- app_assoc, app_length. cbn [length app]. split; [exact E1|lia].
  Qed.

  Lemma tight_chain_go : forall rest e toks cur lf m x tf r fi va one sh T0 Y h ps,
    Forall (fun p => atomOk o (snd (snd p)) /\ spacingOk (fst (snd p)) (snd (snd p))) rest -> skipn cur toks = tightRest rest -> m = MdChain \/ m = MdOp ->
    rootAt (T0 ++ Y) r -> length T0 <= r -> outs o (T0 ++ Y) ps r e ->
    exists toks' cur' lf' m' x' tf' r' fi' va' Y2 h' qs,
      parses o (mk toks cur lf (sb m x tf (Some r) fi (Some r) va one) sh (T0 ++ Y) h ps) (mk toks' cur' lf' (sb m' x' tf' (Some r') fi' (Some r') va' one) sh (T0 ++ Y2) h' (qs ++ ps), SNil)
      /\ skipn cur' toks' = [] /\ length T0 <= r' /\ rootAt (T0 ++ Y2) r' /\ outs o (T0 ++ Y2) (qs ++ ps) r' (group sh e (map (fun p => (fst p, snd (snd p))) rest))
      /\ Forall (fun q => length T0 <= fst q) qs /\ (rest = [] -> h' = h /\ r' = r) /\ (rest <> [] -> h' = Some r').
  Proof.
    induction rest as [|[j [gp b]] rest IH]; intros e toks cur lf m x tf r fi va one sh T0 Y h ps HF HS Hm HR HL HO.
    - exists toks, cur, lf, m, x, tf, r, fi, va, Y, h, []. cbn [tightRest map concat] in HS. split; [apply parses_end; [cbn; now apply skip_end|reflexivity]|].
      repeat (split; auto). intros X. contradiction.
    - inversion HF as [|? ? [HB HG0] HF2]; subst. cbn [fst snd] in HB, HG0. unfold tightRest in HS. cbn [map concat fst snd] in HS. fold (tightRest rest) in HS. rewrite <- app_comm_cons in HS.
      destruct HR as (nr & HN & HP & _). assert (r < length (T0 ++ Y)) as Lr by (apply nth_error_Some; congruence).
      set (i := length (T0 ++ Y)) in *. pose proof (skip_at _ _ _ _ HS) as HA.
      set (P := upd (T0 ++ Y) r (nParent (Some i) nr)). set (T' := P ++ [nd TkOp (joinOp j) None (Some r) None]).
      assert (length P = i) as LP by (unfold P; now rewrite len_upd). assert (length T' = i + 1) as LT by (unfold T'; rewrite app_length; cbn [length]; lia).
      assert (exists P0, P = T0 ++ P0) as [P0 EP].
      { exists (upd Y (r - length T0) (nParent (Some i) nr)). unfold P. rewrite <- upd_app. f_equal. lia. }
      set (old := sb MdField ChainOp false (Some i) fi (Some i) va one).
      (* the joining word *)
      assert (forall R, parses o (mk toks (S cur) lf old sh T' (headOr h i) ps) R -> parses o (mk toks cur lf (sb m x tf (Some r) fi (Some r) va one) sh (T0 ++ Y) h ps) R) as S1.
      { intros R HR. eapply parses_insert; [eapply (read_op o (joinText j)); [destruct j; reflexivity|exact HA]| | | |exact HR].
        - assert (markOp (mk toks cur lf (sb m x tf (Some r) fi (Some r) va one) sh (T0 ++ Y) h ps) (normalOp (joinText j)) = mk toks cur lf (sb m ChainOp tf (Some r) fi (Some r) va one) sh (T0 ++ Y) h ps) as -> by (destruct j; reflexivity).
          destruct Hm as [-> | ->]; reflexivity.
        - rewrite (ins_chain m _ _ _ _ _ _ _ _ _ _ _ _ _ _ nr Hm HN). reflexivity.
        - unfold T', P, i. replace (normalOp (joinText j)) with (joinOp j) by (destruct j; reflexivity). destruct Hm as [-> | ->]; reflexivity. }
      destruct (skip_split _ _ _ _ HS) as (pre & Epre & Lpre).
      set (toks2 := pre ++ atomWords b ++ tightRest rest).
      assert (at_word toks2 (S cur) (atomWords b ++ tightRest rest)) as HA2 by (exists pre, []; split; [now rewrite app_nil_r|auto]).
      set (g := subjFunc (a_subj b)). set (lf1 := subjField lf (a_subj b)).
      assert (exists toks1, reads o (mk toks (S cur) lf old sh T' (headOr h i) ps) (mk toks1 (S cur) lf1 (sFunc old g) sh T' (headOr h i) ps, subjData (a_subj b), subjType (a_subj b), SNil)
        /\ forall one2 lf3 T3 h3 ps3 R, parses o (mk toks2 (S cur) lf3 (newSub one2) sh T3 h3 ps3) R -> parses o (mk toks1 (S cur) lf3 (newSub one2) sh T3 h3 ps3) R) as (toks1 & HRd & HTG).
      { unfold toks2. rewrite Epre, Lpre. apply tight_read; auto. }
      assert (skipn (S cur + length (atomWords b)) toks2 = tightRest rest) as HS2.
      { unfold toks2. rewrite Lpre, <- skip_skip, skipn_app, skipn_all, Nat.sub_diag. cbn [skipn app]. rewrite skipn_app, Nat.sub_diag, skipn_all. reflexivity. }
      assert (length (atomWords b) >= 1) as Lw by (unfold atomWords; cbn [length]; lia).
      (* what joining leaves behind *)
      assert (forall X nb bi eb qs, Forall (fun q => length T' <= fst q) qs -> nth_error (T' ++ X) bi = Some nb -> pn_parent nb = None -> length T' <= bi -> outs o (T' ++ X) (qs ++ ps) bi eb ->
        let T2 := upd (upd (T' ++ X) i (nRight (Some bi) (nd TkOp (joinOp j) None (Some r) None))) bi (nParent (Some i) nb) in
        (exists Y2, T2 = T0 ++ Y2) /\ rootAt T2 i /\ outs o T2 (qs ++ ps) i (joinExpr j e eb)
        /\ forall tk cur2 lf2 s3 h2, sc_op s3 = Some bi -> merge (mk tk cur2 lf2 s3 sh (T' ++ X) h2 (qs ++ ps)) (sFunc old g) = Ok (mk tk cur2 lf2 (sFunc old g) sh T2 (Some i) (qs ++ ps), SNil)) as MG.
      { intros X nb bi eb qs HQ HNb HPb Lb HOb T2. assert (nth_error (T' ++ X) i = Some (nd TkOp (joinOp j) None (Some r) None)) as HNi.
        { unfold T'. rewrite <- app_assoc. cbn [app]. rewrite <- LP. apply nth_app0. }
        assert (i < length (T' ++ X)) as Li by (apply nth_error_Some; congruence). assert (bi < length (T' ++ X)) as Lbi by (apply nth_error_Some; congruence).
        assert (nth_error T2 i = Some (nd TkOp (joinOp j) None (Some r) (Some bi))) as HT2.
        { unfold T2. rewrite nth_upd by now rewrite len_upd. assert (i =? bi = false) as -> by (apply Nat.eqb_neq; lia). rewrite nth_upd by auto. now rewrite Nat.eqb_refl. }
        assert (keeps (T' ++ X) (qs ++ ps) T2 (qs ++ ps)) as KT.
        { eapply keeps_trans.
          - eapply (keeps_upd _ _ i (nRight (Some bi))); [exact HNi|]. repeat split; auto. discriminate.
          - unfold T2. eapply (keeps_upd _ _ bi (nParent (Some i))); [|repeat split; auto]. rewrite nth_upd by auto. assert (bi =? i = false) as -> by (apply Nat.eqb_neq; lia). exact HNb. }
        split; [|split; [|split]].
        - unfold T2, T'. rewrite EP, <- !app_assoc. assert (length (T0 ++ P0) = i) as LP2 by now rewrite <- EP. rewrite app_length in LP2.
          rewrite !upd_at by lia. eexists; reflexivity.
        - exists (nd TkOp (joinOp j) None (Some r) (Some bi)). auto.
        - eapply (O_two o T2 (qs ++ ps) i _ r bi e eb (joinExpr j)); [exact HT2|reflexivity|reflexivity|reflexivity| | |].
          + cbn [nd pn_data]. destruct j; cbn; auto 20.
          + eapply keeps_outs; [|exact HO]. eapply keeps_trans; [|eapply keeps_trans; [|exact KT]].
            * eapply (keeps_upd _ ps r (nParent (Some i))); [exact HN|repeat split; auto].
            * fold P. unfold T'. rewrite <- app_assoc. apply keeps_app. eapply Forall_impl; [|exact HQ]. intros q Hq. cbn beta in *. lia.
          + eapply keeps_outs; [exact KT|exact HOb].
        - intros tk cur2 lf2 s3 h2 E3. apply (merge_ok tk cur2 lf2 s3 sh (T' ++ X) h2 (qs ++ ps) i bi (nd TkOp (joinOp j) None (Some r) None) nb (sFunc old g)); auto; try reflexivity; [now destruct fi|lia]. }
      assert (checkType (mk toks1 (S cur) lf1 (sFunc old g) sh T' (headOr h i) ps) (subjType (a_subj b)) = (mk toks1 (S cur) lf1 (sFunc old g) sh T' (headOr h i) ps, if sh then SNewCtx else SOneNewCtx)) as HCT by (destruct sh, (a_subj b); reflexivity).
      destruct (atom_go o b (negb sh) toks2 (S cur) (tightRest rest) lf1 sh T' (headOr h i) ps HB HA2) as (Yb & qb & lf2 & rb & (Erb & Hqb & HOb & nb & HNb & HPb & HTb) & HG).
      cbn [map group fst snd]. destruct (negb sh && binaryb b) eqn:EB.
      + apply andb_true_iff in EB as [Esh EB]. destruct sh; [discriminate Esh|]. destruct HG as (s2 & E1 & E2 & HG).
        destruct (MG Yb nb rb _ qb Hqb HNb HPb ltac:(lia) HOb) as ((Y2 & EY) & HR2 & HO2 & HM2).
        rewrite EY in *.
        destruct (IH (joinExpr j e (atomExpr b)) toks2 (S cur + length (atomWords b)) lf2 MdOp ChainOp false i fi va one false T0 Y2 (Some i) (qb ++ ps) HF2 HS2 (or_intror eq_refl) HR2)
          as (toks' & cur' & lf' & m' & x' & tf' & r' & fi' & va' & Y3 & h' & qs & K1 & K2 & K3 & K4 & K5 & K6 & K7 & K8); [unfold i; rewrite app_length; lia|exact HO2|].
        exists toks', cur', lf', m', x', tf', r', fi', va', Y3, h', (qs ++ qb). rewrite <- app_assoc. split.
        * apply S1. eapply parses_new; [exact HRd|exact HCT|now right|apply HTG; exact HG|now right|apply HM2; exact E1|reflexivity|].
          assert (S (S cur + (length (atomWords b) - 1)) = S cur + length (atomWords b)) as EQ by lia. rewrite <- EQ in K1. exact K1.
        * split; [exact K2|]. split; [exact K3|]. split; [exact K4|]. split; [exact K5|]. split; [|split].
          -- apply Forall_app. split; auto. eapply Forall_impl; [|exact Hqb]. intros q Hq. cbn beta in *. rewrite LT in Hq. unfold i in Hq. rewrite app_length in Hq. lia.
          -- discriminate.
          -- intros _. destruct rest as [|p rest]; [destruct (K7 eq_refl) as [-> ->]; reflexivity|apply K8; discriminate].
      + destruct HG as (x1 & tf1 & va1 & HG).
        destruct (IH (atomExpr b) toks2 (S cur + length (atomWords b)) lf2 MdChain x1 tf1 rb (Some (length T')) va1 (negb sh) sh T' Yb (headOr (headOr h i) rb) (qb ++ ps) HF2 HS2 (or_introl eq_refl))
          as (toks' & cur' & lf' & m' & x' & tf' & r' & fi' & va' & Y3 & h' & qs & K1 & K2 & K3 & (n3 & K4 & K4' & _) & K5 & K6 & K7 & K8); [exists nb; auto|lia|exact HOb|].
        rewrite app_assoc in K1, K5.
        assert (Forall (fun q => length T' <= fst q) (qs ++ qb)) as HQ2 by (apply Forall_app; auto).
        destruct (MG Y3 n3 r' _ (qs ++ qb) HQ2 K4 K4' K3 K5) as ((Y2 & EY) & HR2 & HO2 & HM2). rewrite EY in *.
        exists toks', (S cur'), lf', MdOp, ChainOp, false, i, fi, va, Y2, (Some i), (qs ++ qb). split.
        * apply S1. pose proof (HTG _ _ _ _ _ _ (HG _ K1)) as K9.
          assert (negb sh = match (if sh then SNewCtx else SOneNewCtx) with SOneNewCtx => true | _ => false end) as EN by (destruct sh; reflexivity). rewrite EN in K9 at 1.
          eapply (parses_new o _ _ _ _ _ (if sh then SNewCtx else SOneNewCtx)); [exact HRd|exact HCT|destruct sh; auto|exact K9|left; reflexivity|apply HM2; reflexivity|reflexivity|].
          apply parses_end; [|reflexivity]. change (nth_error toks' (S cur') = None). apply skip_end. replace (S cur') with (cur' + 1) by lia. rewrite <- skip_skip, K2. reflexivity.
        * split; [replace (S cur') with (cur' + 1) by lia; rewrite <- skip_skip, K2; reflexivity|].
          split; [unfold i; rewrite app_length; lia|]. split; auto. split; auto. split; [|split; [discriminate|auto]].
          eapply Forall_impl; [|exact HQ2]. intros q Hq. cbn beta in *. rewrite LT in Hq. unfold i in Hq. rewrite app_length in Hq. lia.
  Qed.


  (** ** The whole filter *)
  Lemma tight_solid : forall g a, atomOk o a -> spacingOk g a -> Forall solid (tightWords g a).
  Proof.
    intros g a HO HG. pose proof (atomWords_solid _ _ HO) as HS.
    unfold tightWords. destruct (symbolOf (a_test a)) as [[op [|v vs]]|] eqn:E; auto. destruct (symbol_words _ _ _ E) as [EW HOp].
    unfold atomWords in HS. rewrite EW in HS. inversion HS as [|? ? S1 HS1]; subst. inversion HS1 as [|? ? S2 HS2]; subst. inversion HS2 as [|? ? S3 HS3]; subst.
    destruct (sp_before g), (sp_after g); [auto| | |].
    - constructor; [auto|constructor; [apply solid_app; [auto|apply S3]|auto]].
    - constructor; [apply solid_app; [auto|apply S2]|auto].
    - constructor; [apply solid_app; [auto|apply Forall_app; split; [apply S2|apply S3]]|auto].
  Qed.
  Lemma tight_same : forall x g a, x = s2b "&&" \/ x = s2b "||" -> atomOk o a -> spacingOk g a -> (In x (tightWords g a) <-> In x (atomWords a)).
  Proof.
    intros x g a Hx HO HG. destruct (tight_cases g a HO HG) as [-> | [(s & op & v & vs & k & ET & HF & EA & _ & _)|(op & v & vs & ET & HF & EA)]]; [tauto| |].
    - rewrite ET, EA. rewrite in_app_iff, in_app_iff. cbn [In]. rewrite or_assoc.
      assert (s ++ op ++ v <> x /\ ~ In x (piece s) /\ op <> x /\ ~ In x (piece v)) as (A & B & C & D); [|tauto].
      assert (isOp x = true) as HI by (destruct Hx; subst; reflexivity).
      split; [|split; [|split]].
      + intro E. pose proof (fused_isOp _ _ _ HF) as X. rewrite E in X. congruence.
      + intro H. destruct s as [|c s]; [destruct H|]. destruct H as [<- |[]]. pose proof (fu_ops _ _ _ HF (c :: s) [] []). rewrite app_nil_r in H. apply H; auto. now apply isOp_in.
      + pose proof (fu_op _ _ _ HF) as H. intros ->. destruct Hx as [-> | ->]; cbn in H; repeat (destruct H as [H|H]; [discriminate H|]); exact H.
      + intro H. destruct v as [|c v]; [destruct H|]. destruct H as [<- |[]]. apply (fu_v _ _ _ HF); [discriminate|]. destruct Hx as [Hx|Hx]; injection Hx as -> _; cbn; tauto.
    - rewrite ET, EA. cbn [In]. rewrite in_app_iff. cbn [In].
      assert (op ++ v <> x /\ op <> x /\ ~ In x (piece v)) as (A & C & D); [|tauto].
      assert (isOp x = true) as HI by (destruct Hx; subst; reflexivity).
      split; [|split].
      + intro E. pose proof (fused_isOp _ _ _ HF) as X. cbn [app] in X. rewrite E in X. congruence.
      + pose proof (fu_op _ _ _ HF) as H. intros ->. destruct Hx as [-> | ->]; cbn in H; repeat (destruct H as [H|H]; [discriminate H|]); exact H.
      + intro H. destruct v as [|c v]; [destruct H|]. destruct H as [<- |[]]. apply (fu_v _ _ _ HF); [discriminate|]. destruct Hx as [Hx|Hx]; injection Hx as -> _; cbn; tauto.
  Qed.
  Lemma tight_short : forall c, tightOk o c -> shortCircuit (tightChain c) = shortCircuit (chainWords (plain c)).
  Proof.
    intros c ([H1 H2] & H3 & H4).
    assert (forall x, x = s2b "&&" \/ x = s2b "||" -> isOneOf x (tightChain c) = isOneOf x (chainWords (plain c))) as X.
    { intros x Hx. apply eq_true_iff_eq. rewrite !isOneOf_spec. unfold tightChain, chainWords, plain. cbn [ch_first ch_rest]. rewrite !in_app_iff.
      rewrite (tight_same x _ _ Hx H1 H3). cbn [plain ch_rest] in H2. clear H1 H3. induction (t_rest c) as [|[j [g a]] r IH]; [tauto|].
      inversion H2; subst. inversion H4; subst. cbn [fst snd] in *. unfold tightRest, restWords in *. cbn [map concat fst snd In]. rewrite !in_app_iff. cbn [In].
      rewrite (tight_same x g a) by auto. specialize (IH ltac:(auto) ltac:(auto)). tauto. }
    unfold shortCircuit. now rewrite !X by auto.
  Qed.
  Theorem parse_tight : forall c t, tightOk o c -> spread (tightChain c) t -> exists N, forall fuel, N <= fuel ->
    parseSimple o fuel t = Ok (group (shortCircuit (chainWords (plain c))) (atomExpr (ch_first (plain c))) (ch_rest (plain c))).
  Proof.
    intros c t HC HT. pose proof (tight_short c HC) as ES. destruct HC as ([HA HR] & HG & HGs). cbn [plain ch_first ch_rest] in *.
    assert (Forall (fun p => atomOk o (snd (snd p)) /\ spacingOk (fst (snd p)) (snd (snd p))) (t_rest c)) as HR2.
    { apply Forall_forall. intros p Hp. rewrite Forall_forall in HGs. split; [|auto]. rewrite Forall_map, Forall_forall in HR. now apply (HR p). }
    assert (fields t = tightChain c) as EF.
    { apply spread_fields; auto. unfold tightChain. apply Forall_app. split; [now apply tight_solid|]. unfold tightRest. clear - HR2. induction HR2 as [|[j [g a]] r [H1 H2] H IH]; [constructor|].
      cbn [map concat fst snd]. apply Forall_app. split; auto. constructor; [apply joinText_solid|now apply tight_solid]. }
    set (sh := shortCircuit (chainWords (plain c))). destruct (t_first c) as [g a0] eqn:EFs. cbn [fst snd] in *.
    set (toks2 := atomWords a0 ++ tightRest (t_rest c)).
    assert (at_word toks2 0 (atomWords a0 ++ tightRest (t_rest c))) as AW by (exists [], []; split; [now rewrite app_nil_r|auto]).
    destruct (atom_go o a0 false toks2 0 (tightRest (t_rest c)) [] sh [] None [] HA AW) as (Y & qs & lf2 & r & (Er & Hq & HO & HN) & x & tf & va & HG2).
    destruct (tight_chain_go (t_rest c) (atomExpr a0) toks2 (length (atomWords a0)) lf2 MdChain x tf r (Some 0) va false sh [] Y (Some r) (qs ++ []) HR2)
      as (toks' & cur' & lf' & m' & x' & tf' & r' & fi' & va' & Y3 & h' & qs2 & K1 & K2 & K3 & (n3 & K4 & _ & K4') & K5 & K6 & K7 & K8); auto.
    { unfold toks2. rewrite skipn_app, skipn_all, Nat.sub_diag. reflexivity. }
    { cbn. lia. }
    specialize (HG2 _ K1). apply (tight_go g a0 [] (tightRest (t_rest c))) in HG2; auto. destruct HG2 as [N1 HG2].
    destruct (outs_outNode o (mk toks' cur' lf' (sb m' x' tf' (Some r') fi' (Some r') va' false) sh ([] ++ Y3) h' (qs2 ++ qs ++ [])) _ _ _ eq_refl eq_refl K5) as [N2 HO2].
    assert (h' = Some r') as Eh by (destruct (t_rest c) as [|p l]; [destruct (K7 eq_refl) as [-> ->]; reflexivity|apply K8; discriminate]).
    exists (N1 + N2). intros fuel Hf. unfold parseSimple. rewrite EF. unfold startCtx. rewrite ES. fold sh. unfold tightChain. rewrite EFs. cbn [fst snd].
    cbn [app length] in HG2. fold (mk (tightWords g a0 ++ tightRest (t_rest c)) 0 [] (newSub false) sh [] None []).
    rewrite HG2 by lia. cbn [obind]. unfold outputSimple. cbn [mk c_head c_tree]. rewrite Eh. cbn [app] in *. rewrite K4.
    rewrite K4'. subst h'. now rewrite HO2 by lia.
  Qed.
End Tight.
