(** What member removal writes. *)
From Verif Require Import Base MTokenizer SJson MFastVal MExpr MMatcher PTokenizer MComposer SComposer PComposer.
From Coq Require Import List NArith ZArith Arith Lia Bool.
Import ListNotations.
Open Scope nat_scope.

Definition upd (rm : rmap) (l : list (bytes * bytes)) : rmap := fold_left (fun m p => rmap_set m (fst p) (snd p)) l rm.
Lemma upd_app : forall rm a b, upd rm (a ++ b) = upd (upd rm a) b.
Proof. intros. apply fold_left_app. Qed.

(** ** The equations of the specification *)
Definition wmem (names : list bytes) (m : mem cst) : mem cst :=
  Mem (m_wc m) (m_wk m) (m_kt m) (m_kx m) (m_wd m) (m_wv m) (without names (m_v m)).
Definition kept (names : list bytes) (ms : list (mem cst)) : list (mem cst) := filter (fun m => negb (named names m)) ms.
Lemma without_obj : forall names ms w, without names (CObj ms w) = CObj (map (wmem names) (kept names ms)) w.
Proof.
  intros names ms w. cbn [without]. f_equal. unfold kept. induction ms as [|m ms IH]; auto. cbn [map filter].
  change (named names (Mem (m_wc m) (m_wk m) (m_kt m) (m_kx m) (m_wd m) (m_wv m) (without names (m_v m)))) with (named names m).
  destruct (named names m); cbn [negb map]; rewrite IH; reflexivity.
Qed.
Lemma plain_without : forall names v, SComposer.plain (without names v) = SComposer.plain v.
Proof. intros names [t x|es w|ms w]; reflexivity. Qed.

Lemma inner_slice : forall x, 2 <= length x -> slice x 1 (length x - 1) = inner x.
Proof.
  intros [|c x] H; cbn [length] in H; [lia|]. unfold slice, inner. cbn [skipn tl length]. rewrite removelast_firstn_len. f_equal. lia.
Qed.

Lemma removeLoop_none : forall src key n1 n2 s m, existsb (bytes_eqb key) n1 = false -> removeLoop src key (n1 ++ n2) s m = removeLoop src key n2 s m.
Proof.
  intros src key. induction n1 as [|a n1 IH]; intros n2 s m H; auto. cbn [existsb] in H. apply orb_false_iff in H as [H1 H2].
  cbn [app removeLoop]. unfold bytesEqualsString. rewrite H1. cbn [negb]. auto.
Qed.
Lemma existsb_notin : forall key (l : list bytes), ~ In key l -> existsb (bytes_eqb key) l = false.
Proof.
  intros key l H. destruct (existsb (bytes_eqb key) l) eqn:E; auto. apply existsb_exists in E as (x & Hx & E). apply beqb_eq in E. subst. contradiction.
Qed.

Section Run.
  Variables (src dst : bytes) (names : list bytes).
  Hypothesis ND : NoDup names.

  Definition holds (c : composer) (T : bytes) : Prop := c_pos c = length T /\ c_body c = T ++ skipn (length T) dst.
  Lemma write_fwd : forall c T x t, holds c T -> tok_eqb t TObjectEnd && tok_eqb (c_prev c) TListDelim = false -> length T + length x <= length dst ->
    exists c', cwrite c x t = Ok c' /\ holds c' (T ++ x) /\ c_prev c' = t.
  Proof.
    intros c T x t (HP & HB) Hb HL. unfold cwrite. rewrite Hb. cbn [andb]. rewrite HP, HB, app_length, skipn_length.
    destruct (Nat.leb_spec (length T + length x) (length T + (length dst - length T))); [|lia].
    eexists. split; [reflexivity|]. split; [|reflexivity]. split; cbn [c_pos c_body]; [now rewrite app_length|].
    rewrite firstn_app, firstn_all, Nat.sub_diag, firstn_O, app_nil_r, app_length, <- app_assoc. do 2 f_equal.
    rewrite skipn_app, skipn_all2 by lia. cbn [app]. replace (length T + length x - length T) with (length x) by lia. apply skipn_add.
  Qed.
  Lemma write_back : forall c T y, holds c (T ++ [y]) -> c_prev c = TListDelim -> length T + 1 <= length dst ->
    exists c', cwrite c [125%N] TObjectEnd = Ok c' /\ holds c' (T ++ [125%N]) /\ c_prev c' = TObjectEnd.
  Proof.
    intros c T y (HP & HB) Hp HL. unfold cwrite. rewrite Hp. cbn [tok_eqb andb]. rewrite HP, HB, !app_length, skipn_length. cbn [length].
    destruct (Nat.eqb_spec (length T + 1) 0); [lia|]. replace (length T + 1 - 1) with (length T) by lia.
    destruct (Nat.leb_spec (length T + 1) (length T + 1 + (length dst - (length T + 1)))); [|lia].
    eexists. split; [reflexivity|]. split; [|reflexivity]. split; cbn [c_pos c_body]; [now rewrite app_length|].
    rewrite <- !app_assoc, firstn_app, firstn_all, Nat.sub_diag, firstn_O, app_nil_r, app_length. cbn [length]. do 2 f_equal.
    rewrite skipn_app, skipn_all2 by lia. replace (length T + 1 - length T) with 1 by lia. reflexivity.
  Qed.

  Definition St (l : list wtok) (T : bytes) (q : bool) (d : nat) (rm : rmap) (n : nat) (s : cst8) : Prop :=
    here src (k_pos s) l /\ holds (k_c s) T /\ tok_eqb (c_prev (k_c s)) TListDelim = q /\ k_depth s = d /\ k_rm s = rm /\ k_n s = n
    /\ length T + length (wrender l) <= length dst.
  Definition reach (s s' : cst8) : Prop := exists k, forall f, mainLoop (k + f) src names s = mainLoop f src names s'.
  Lemma reach_trans : forall a b c, reach a b -> reach b c -> reach a c.
  Proof. intros a b c (k & A) (k' & B). exists (k + k'). intro f. now rewrite <- Nat.add_assoc, A, B. Qed.
  Lemma reach_refl : forall a, reach a a.
  Proof. intro a. exists 0. auto. Qed.

  Lemma St_eq : forall l T q d rm n s T' d' rm' n', St l T q d rm n s -> T = T' -> d = d' -> rm = rm' -> n = n' -> St l T' q d' rm' n' s.
  Proof. intros; subst; assumption. Qed.

  (** The depth after a token. *)
  Definition depthAfter (t : tok) (d d' : nat) : Prop :=
    match t with
    | TObjectStart | TArrayStart => d' = S d
    | TObjectEnd | TArrayEnd => d = S d'
    | _ => d' = d
    end.

  Lemma one : forall w t x r T q d d' rm n s, St ((w, (t, x)) :: r) T q d rm n s ->
    t <> TString -> t <> TEnd -> t <> TUnknown -> (t = TObjectEnd -> q = false) -> depthAfter t d d' ->
    exists s', reach s s' /\ St r (T ++ x) (tok_eqb t TListDelim) d' rm n s'.
  Proof.
    intros w t x r T q d d' rm n s (H & HC & HQ & HD & HR & HN & HL) N1 N2 N3 HO HA. cbn [wrender] in HL. rewrite !app_length in HL.
    destruct (here_step _ _ _ _ _ _ H) as (E & Ex & H').
    destruct (write_fwd (k_c s) T x t) as (c' & EC & HC' & HP'); auto; [|lia|].
    { destruct (tok_eqb t TObjectEnd) eqn:Et; auto. apply tok_eqb_eq in Et. cbn [andb]. rewrite HQ. auto. }
    exists (C8 (k_pos s + length w + length x) c' d' rm n). split.
    - exists 1. intro f. cbn [Nat.add mainLoop]. rewrite E, Ex, HR, HN. rewrite <- HD in HA.
      destruct t; try contradiction; cbn [depthAfter] in HA; rewrite HA, EC; reflexivity.
    - unfold St. cbn [k_pos k_c k_depth k_rm k_n]. rewrite HP'. split; auto. split; auto. repeat split; auto. rewrite app_length. lia.
  Qed.
  Lemma one_back : forall w r T y d rm n s, St ((w, (TObjectEnd, [125%N])) :: r) (T ++ [y]) true (S d) rm n s ->
    exists s', reach s s' /\ St r (T ++ [125%N]) false d rm n s'.
  Proof.
    intros w r T y d rm n s (H & HC & HQ & HD & HR & HN & HL). cbn [wrender] in HL. rewrite !app_length in HL. cbn [length] in HL.
    destruct (here_step _ _ _ _ _ _ H) as (E & Ex & H'). apply tok_eqb_eq in HQ.
    destruct (write_back (k_c s) T y) as (c' & EC & HC' & HP'); auto; [lia|].
    exists (C8 (k_pos s + length w + 1) c' d rm n). split.
    - exists 1. intro f. cbn [Nat.add mainLoop]. rewrite E, Ex, HD, HR, HN, EC. reflexivity.
    - unfold St. cbn [k_pos k_c k_depth k_rm k_n]. rewrite HP'. split; auto. split; auto. repeat split; auto. rewrite app_length. cbn [length]. lia.
  Qed.
  (** A plain string and the token after it. *)
  Lemma two : forall w x w2 t2 x2 r T q d d' rm n s, St ((w, (TString, x)) :: (w2, (t2, x2)) :: r) T q d rm n s ->
    t2 = TListDelim /\ d' = d \/ t2 = TObjectEnd /\ d = S d' \/ t2 = TArrayEnd /\ d' = d ->
    exists s', reach s s' /\ St r (T ++ x ++ x2) (tok_eqb t2 TListDelim) d' rm n s'.
  Proof.
    intros w x w2 t2 x2 r T q d d' rm n s (H & HC & HQ & HD & HR & HN & HL) HA. cbn [wrender] in HL. rewrite !app_length in HL.
    destruct (here_step _ _ _ _ _ _ H) as (E & Ex & H1). destruct (here_step _ _ _ _ _ _ H1) as (E2 & Ex2 & H2).
    destruct (write_fwd (k_c s) T x TString) as (c1 & EC1 & HC1 & HP1); auto; [lia|].
    destruct (write_fwd c1 (T ++ x) x2 t2) as (c2 & EC2 & HC2 & HP2); auto; [rewrite HP1; apply andb_false_r|rewrite app_length; lia|].
    eexists (C8 _ c2 d' rm n). split.
    - exists 1. intro f. cbn [Nat.add mainLoop]. rewrite E, Ex, E2, Ex2, HD, HR, HN.
      destruct HA as [(-> & ->)|[(-> & ->)|(-> & ->)]]; rewrite EC1; cbn [obind]; rewrite EC2; reflexivity.
    - unfold St. cbn [k_pos k_c k_depth k_rm k_n]. rewrite HP2, app_assoc. split; [exact H2|]. split; auto. repeat split; auto. rewrite !app_length. lia.
  Qed.
  Lemma lex_string_len : forall x, lex TString x -> 2 <= length x.
  Proof. intros x H. inversion H; subst. cbn. rewrite app_length. cbn. lia. Qed.
  Lemma here_lex : forall p w t x r, here src p ((w, (t, x)) :: r) -> lex t x.
  Proof. intros p w t x r (_ & _ & H). cbn [wseq] in H. tauto. Qed.

  (** A name that is not to be removed. *)
  Lemma key_kept : forall w kt x w2 r T q d rm n s, St ((w, (kt, x)) :: (w2, (TObjectKeyDelim, [58%N])) :: r) T q d rm n s ->
    key_kind kt -> tok_eqb kt TString && existsb (bytes_eqb (inner x)) names = false ->
    exists s', reach s s' /\ St r (T ++ x ++ [58%N]) false d rm n s'.
  Proof.
    intros w kt x w2 r T q d rm n s HS HK HN. destruct HK as [<-|[<-|[]]].
    - destruct HS as (H & HC & HQ & HD & HR & HNn & HL). cbn [wrender] in HL. rewrite !app_length in HL. cbn [length] in HL.
      destruct (here_step _ _ _ _ _ _ H) as (E & Ex & H1). destruct (here_step _ _ _ _ _ _ H1) as (E2 & Ex2 & H2). pose proof (lex_string_len _ (here_lex _ _ _ _ _ H)) as Hx.
      destruct (write_fwd (k_c s) T x TString) as (c1 & EC1 & HC1 & HP1); auto; [lia|].
      destruct (write_fwd c1 (T ++ x) [58%N] TString) as (c2 & EC2 & HC2 & HP2); auto; [rewrite app_length; cbn [length]; lia|].
      eexists (C8 _ c2 d rm n). split.
      + exists 1. intro f. cbn [Nat.add mainLoop]. rewrite E, Ex, E2, Ex2.
        replace (k_pos s + length w + length x - (k_pos s + length w)) with (length x) by lia.
        destruct (Nat.ltb_spec (length x) 2); [lia|]. rewrite inner_slice by auto.
        rewrite <- (app_nil_r names) at 1. cbn [tok_eqb andb] in HN. rewrite removeLoop_none by exact HN. cbn [removeLoop obind k_c k_pos k_depth k_rm k_n].
        rewrite EC1. cbn [obind]. rewrite EC2. cbn [obind]. rewrite HD, HR, HNn. reflexivity.
      + unfold St. cbn [k_pos k_c k_depth k_rm k_n]. rewrite HP2, app_assoc. split; [exact H2|]. split; auto. repeat split; auto. rewrite !app_length. cbn [length]. lia.
    - destruct (one _ _ _ _ _ _ _ d _ _ _ HS) as (s1 & R1 & S1); try discriminate; [reflexivity|].
      destruct (one _ _ _ _ _ _ _ d _ _ _ S1) as (s2 & R2 & S2); try discriminate; [reflexivity|].
      exists s2. rewrite app_assoc. split; [eauto using reach_trans|exact S2].
  Qed.

  (** A member to be removed, with the token after it. *)
  Lemma key_removed : forall w x w2 wv v wt t xt r T q d rm n s,
    St ((w, (TString, x)) :: (w2, (TObjectKeyDelim, [58%N])) :: wtoks wv v ++ (wt, (t, xt)) :: r) T q d rm n s ->
    wf_cst v -> existsb (bytes_eqb (inner x)) names = true ->
    (t = TListDelim -> exists s', reach s s' /\ St r T q d (rmap_set rm (inner x) (wv ++ render v)) (S n) s')
    /\ (forall d', t = TObjectEnd -> xt = [125%N] -> d = S d' -> (q = true -> exists T1, T = T1 ++ [44%N]) ->
        exists s', reach s s' /\ St r ((if q then removelast T else T) ++ [125%N]) false d' (rmap_set rm (inner x) (wv ++ render v)) (S n) s').
  Proof.
    intros w x w2 wv v wt t xt r T q d rm n s (H & HC & HQ & HD & HR & HNn & HL) HW HN.
    cbn [wrender] in HL. rewrite wrender_app in HL. cbn [wrender] in HL. rewrite !app_length in HL. cbn [length] in HL.
    destruct (here_step _ _ _ _ _ _ H) as (E & Ex & H1). destruct (here_step _ _ _ _ _ _ H1) as (E2 & Ex2 & H2). pose proof (lex_string_len _ (here_lex _ _ _ _ _ H)) as Hx.
    set (p2 := k_pos s + length w + length x + length w2 + length [58%N]) in *.
    destruct (valueLoop_value _ _ _ _ _ HW H2) as (EV & H3). set (p3 := p2 + length wv + length (render v)) in *.
    destruct (here_step _ _ _ _ _ _ H3) as (E4 & Ex4 & H4).
    assert (slice src p2 p3 = wv ++ render v) as EX.
    { destruct H2 as (_ & HS & _). rewrite wrender_app, wtoks_lead in HS. unfold p3. rewrite <- Nat.add_assoc, <- app_length. now apply slice_from_skipn with (1 := HS). }
    apply existsb_exists in HN as (k & Hk & Ek). apply beqb_eq in Ek. subst k. apply in_split in Hk as (n1 & n2 & EN).
    assert (~ In (inner x) n1 /\ ~ In (inner x) n2) as [N1 N2].
    { rewrite EN in ND. apply NoDup_remove_2 in ND. rewrite in_app_iff in ND. tauto. }
    assert (forall f, mainLoop (1 + f) src names s =
      obind (removeLoop src (inner x) (inner x :: n2) (C8 p2 (k_c s) d rm n) false)
        (fun p => if snd p then mainLoop f src names (fst p) else
          obind (cwrite (k_c (fst p)) x TString) (fun c1 => obind (cwrite c1 [58%N] TString) (fun c2 => mainLoop f src names (C8 (k_pos (fst p)) c2 (k_depth (fst p)) (k_rm (fst p)) (k_n (fst p))))))) as EM.
    { intro f. cbn [Nat.add mainLoop]. rewrite E, Ex, E2, Ex2.
      replace (k_pos s + length w + length x - (k_pos s + length w)) with (length x) by lia.
      destruct (Nat.ltb_spec (length x) 2); [lia|]. rewrite inner_slice by auto. rewrite EN at 1. rewrite removeLoop_none by now apply existsb_notin.
      rewrite HD, HR, HNn. fold p2. destruct (removeLoop _ _ _ _ _) as [[s' m']| | |]; reflexivity. }
    split.
    - intros ->. eexists (C8 _ (k_c s) d _ (S n)). split.
      + exists 1. intro f. rewrite EM. cbn [removeLoop]. unfold bytesEqualsString at 1. rewrite beqb_refl. cbn [negb k_pos k_c k_rm k_n k_depth]. rewrite EV. cbn [obind].
        rewrite E4, EX. rewrite <- (app_nil_r n2) at 1. rewrite removeLoop_none by now apply existsb_notin. cbn [removeLoop obind fst snd]. reflexivity.
      + unfold St. cbn [k_pos k_c k_depth k_rm k_n]. split; [exact H4|]. repeat split; try apply HC; auto. lia.
    - intros d' -> -> -> HT.
      assert (exists c', cwrite (k_c s) [125%N] TObjectEnd = Ok c' /\ holds c' ((if q then removelast T else T) ++ [125%N]) /\ c_prev c' = TObjectEnd) as (c' & EC & HC' & HP').
      { destruct q.
        - destruct (HT eq_refl) as (T1 & ->). rewrite removelast_last. apply tok_eqb_eq in HQ. apply (write_back _ _ 44%N); auto. rewrite app_length in HL. cbn [length] in HL. lia.
        - apply write_fwd; auto. cbn [length] in *. lia. }
      eexists (C8 _ c' d' _ (S n)). split.
      + exists 1. intro f. rewrite EM. cbn [removeLoop]. unfold bytesEqualsString at 1. rewrite beqb_refl. cbn [negb k_pos k_c k_rm k_n k_depth]. rewrite EV. cbn [obind].
        rewrite E4, Ex4, EX, EC. cbn [obind]. rewrite <- (app_nil_r n2) at 1. rewrite removeLoop_none by now apply existsb_notin. cbn [removeLoop obind fst snd]. reflexivity.
      + unfold St. cbn [k_pos k_c k_depth k_rm k_n]. rewrite HP'. split; [exact H4|]. split; auto. repeat split; auto.
        assert (length (removelast T) <= length T) by (rewrite removelast_firstn_len, firstn_length; lia).
        rewrite app_length. destruct q; cbn [length] in *; lia.
  Qed.

  (** ** Values *)
  Notation den v := (dense (without names v)).
  Notation ends v := (stringEnds (without names v)).
  Notation tk v := (taken names v).
  Definition goes (v : cst) : Prop := forall w r T q d rm n s, SComposer.plain v = false -> St (wtoks w v ++ r) T q d rm n s ->
    exists s', reach s s' /\ St r (T ++ den v) false (d + ends v) (upd rm (tk v)) (n + length (tk v)) s'.

  Lemma plain_is : forall v, SComposer.plain v = true -> exists x, v = CLit TString x.
  Proof. intros [t x|es w|ms w] H; try discriminate H. destruct t; try discriminate H. eauto. Qed.

  Lemma goes_comma : forall v, goes v -> forall w wc r T q d rm n s, St (wtoks w v ++ (wc, (TListDelim, [44%N])) :: r) T q d rm n s ->
    exists s', reach s s' /\ St r (T ++ den v ++ [44%N]) true (d + ends v) (upd rm (tk v)) (n + length (tk v)) s'.
  Proof.
    intros v HG w wc r T q d rm n s HS. destruct (SComposer.plain v) eqn:EP.
    - apply plain_is in EP as (x & ->). cbn [wtoks app] in HS. cbn [without dense stringEnds taken upd fold_left length]. rewrite !Nat.add_0_r.
      apply (two _ _ _ _ _ _ _ _ _ d _ _ _ HS). auto.
    - destruct (HG _ _ _ _ _ _ _ _ EP HS) as (s1 & R1 & S1). destruct (one _ _ _ _ _ _ _ (d + ends v) _ _ _ S1) as (s2 & R2 & S2); try discriminate; [reflexivity|].
      exists s2. rewrite app_assoc. split; [eauto using reach_trans|exact S2].
  Qed.
  Lemma goes_obj : forall v, goes v -> forall w wc r T q d rm n s, St (wtoks w v ++ (wc, (TObjectEnd, [125%N])) :: r) T q (S d) rm n s ->
    exists s', reach s s' /\ St r (T ++ den v ++ [125%N]) false (d + ends v) (upd rm (tk v)) (n + length (tk v)) s'.
  Proof.
    intros v HG w wc r T q d rm n s HS. destruct (SComposer.plain v) eqn:EP.
    - apply plain_is in EP as (x & ->). cbn [wtoks app] in HS. cbn [without dense stringEnds taken upd fold_left length]. rewrite !Nat.add_0_r.
      apply (two _ _ _ _ _ _ _ _ _ d _ _ _ HS). auto.
    - destruct (HG _ _ _ _ _ _ _ _ EP HS) as (s1 & R1 & S1). destruct (one _ _ _ _ _ _ _ (d + ends v) _ _ _ S1) as (s2 & R2 & S2); try discriminate; auto; [reflexivity|].
      exists s2. rewrite app_assoc. split; [eauto using reach_trans|exact S2].
  Qed.
  Lemma goes_arr : forall v, goes v -> forall w wc r T q d rm n s, St (wtoks w v ++ (wc, (TArrayEnd, [93%N])) :: r) T q (S d) rm n s ->
    exists s', reach s s' /\ St r (T ++ den v ++ [93%N]) false (d + ends v + (if SComposer.plain v then 1 else 0)) (upd rm (tk v)) (n + length (tk v)) s'.
  Proof.
    intros v HG w wc r T q d rm n s HS. destruct (SComposer.plain v) eqn:EP.
    - apply plain_is in EP as (x & ->). cbn [wtoks app] in HS. cbn [without dense stringEnds taken upd fold_left length]. rewrite !Nat.add_0_r.
      replace (d + 1) with (S d) by lia. apply (two _ _ _ _ _ _ _ _ _ (S d) _ _ _ HS). auto.
    - destruct (HG _ _ _ _ _ _ _ _ EP HS) as (s1 & R1 & S1). destruct (one _ _ _ _ _ _ _ (d + ends v) _ _ _ S1) as (s2 & R2 & S2); try discriminate; auto; [reflexivity|].
      exists s2. rewrite app_assoc, Nat.add_0_r. split; [eauto using reach_trans|exact S2].
  Qed.

  Definition lastPlain (es : list (elt cst)) : nat := match rev es with e :: _ => if SComposer.plain (e_v e) then 1 else 0 | [] => 0 end.
  Lemma lastPlain_cons : forall e e' es, lastPlain (e :: e' :: es) = lastPlain (e' :: es).
  Proof.
    intros e e' es. unfold lastPlain. cbn [rev]. destruct (rev es ++ [e']) as [|y l] eqn:E; [destruct (rev es); discriminate E|reflexivity].
  Qed.
  Lemma commas_cons : forall x y l, commas (x :: y :: l) = x ++ [44%N] ++ commas (y :: l).
  Proof. reflexivity. Qed.

  Lemma elts_go : forall es e, Forall (fun e => goes (e_v e)) (e :: es) -> forall wcl r T q d rm n s,
    St (wtoks (e_wl e) (e_v e) ++ elts_toks false es ++ (wcl, (TArrayEnd, [93%N])) :: r) T q (S d) rm n s ->
    exists s', reach s s' /\ St r (T ++ commas (map (fun e => den (e_v e)) (e :: es)) ++ [93%N]) false
      (d + (list_sum (map (fun e => ends (e_v e)) (e :: es)) + lastPlain (e :: es))) (upd rm (flat_map (fun e => tk (e_v e)) (e :: es)))
      (n + length (flat_map (fun e => tk (e_v e)) (e :: es))) s'.
  Proof.
    induction es as [|e' es IH]; intros e HG wcl r T q d rm n s HS.
    - inversion HG as [|a b G1 G2]; subst. cbn [elts_toks app] in HS. destruct (goes_arr _ G1 _ _ _ _ _ _ _ _ _ HS) as (s1 & R1 & S1).
      exists s1. split; auto. cbn [map commas flat_map list_sum fold_right]. unfold lastPlain. cbn [rev app]. rewrite app_nil_r, Nat.add_0_r, Nat.add_assoc. exact S1.
    - inversion HG as [|a b G1 G2]; subst. cbn [elts_toks comma_of app] in HS. rewrite <- app_assoc in HS.
      destruct (goes_comma _ G1 _ _ _ _ _ _ _ _ _ HS) as (s1 & R1 & S1). destruct (IH e' G2 _ _ _ _ (d + ends (e_v e)) _ _ _ S1) as (s2 & R2 & S2).
      exists s2. split; [eauto using reach_trans|]. rewrite lastPlain_cons.
      change (map (fun e => den (e_v e)) (e :: e' :: es)) with (den (e_v e) :: den (e_v e') :: map (fun e => den (e_v e)) es). rewrite commas_cons.
      change (flat_map (fun e => tk (e_v e)) (e :: e' :: es)) with (tk (e_v e) ++ flat_map (fun e => tk (e_v e)) (e' :: es)). rewrite upd_app, app_length.
      change (list_sum (map (fun e => ends (e_v e)) (e :: e' :: es))) with (ends (e_v e) + list_sum (map (fun e => ends (e_v e)) (e' :: es))).
      refine (St_eq _ _ _ _ _ _ _ _ _ _ _ S2 _ _ eq_refl _); [|lia|lia]. rewrite <- !app_assoc. reflexivity.
  Qed.

  (** The text of an object from a member on; [q]: a comma was written last. *)
  Definition closing (T : bytes) (q : bool) (K : list bytes) : bytes :=
    match K with [] => (if q then removelast T else T) ++ [125%N] | _ => T ++ commas K ++ [125%N] end.
  Definition memText (m : mem cst) : bytes := m_kx m ++ [58%N] ++ den (m_v m).
  Definition memTk (m : mem cst) : list (bytes * bytes) := if named names m then [(inner (m_kx m), m_wv m ++ render (m_v m))] else tk (m_v m).

  Lemma mems_go : forall ms m, Forall wf_mem (m :: ms) -> Forall (fun m => goes (m_v m)) (m :: ms) -> forall wcl r T q d rm n s,
    St ((m_wk m, (m_kt m, m_kx m)) :: (m_wd m, (TObjectKeyDelim, [58%N])) :: wtoks (m_wv m) (m_v m) ++ mems_toks false ms ++ (wcl, (TObjectEnd, [125%N])) :: r) T q (S d) rm n s ->
    (q = true -> exists T1, T = T1 ++ [44%N]) ->
    exists s', reach s s' /\ St r (closing T q (map memText (kept names (m :: ms)))) false
      (d + list_sum (map (fun m => ends (m_v m)) (kept names (m :: ms)))) (upd rm (flat_map memTk (m :: ms))) (n + length (flat_map memTk (m :: ms))) s'.
  Proof.
    induction ms as [|m' ms IH]; intros m HW HG wcl r T q d rm n s HS HT; inversion HW as [|a b W1 W2]; subst; inversion HG as [|a b G1 G2]; subst;
      assert (wf_cst (m_v m) /\ key_kind (m_kt m)) as [WV WK] by (unfold wf_mem in W1; tauto); unfold kept; cbn [filter flat_map];
      destruct (named names m) eqn:EN; cbn [negb];
      (assert (memTk m = if named names m then [(inner (m_kx m), m_wv m ++ render (m_v m))] else tk (m_v m)) as ETk by reflexivity); rewrite EN in ETk; rewrite !ETk.
    - apply andb_true_iff in EN as [ET EN]. apply tok_eqb_eq in ET. rewrite ET in HS. cbn [mems_toks app] in HS.
      destruct (key_removed _ _ _ _ _ _ _ _ _ _ _ _ _ _ _ HS WV EN) as [_ X]. destruct (X d eq_refl eq_refl eq_refl HT) as (s1 & R1 & S1).
      exists s1. split; auto. cbn [map closing list_sum fold_right app upd fold_left fst snd length]. rewrite Nat.add_0_r, Nat.add_1_r. exact S1.
    - destruct (key_kept _ _ _ _ _ _ _ _ _ _ _ HS WK EN) as (s1 & R1 & S1). cbn [mems_toks app] in S1.
      destruct (goes_obj _ G1 _ _ _ _ _ _ _ _ _ S1) as (s2 & R2 & S2). exists s2. split; [eauto using reach_trans|].
      cbn [map closing commas list_sum fold_right]. unfold memText. rewrite app_nil_r, Nat.add_0_r. rewrite <- !app_assoc in S2 |- *. exact S2.
    - apply andb_true_iff in EN as [ET EN]. apply tok_eqb_eq in ET. rewrite ET in HS. cbn [mems_toks comma_of app] in HS. rewrite <- app_assoc in HS.
      destruct (key_removed _ _ _ _ _ _ _ _ _ _ _ _ _ _ _ HS WV EN) as [X _]. destruct (X eq_refl) as (s1 & R1 & S1).
      destruct (IH m' W2 G2 _ _ _ _ _ _ _ _ S1 HT) as (s2 & R2 & S2). exists s2. split; [eauto using reach_trans|].
      refine (St_eq _ _ _ _ _ _ _ _ _ _ _ S2 _ _ _ _); try reflexivity. cbn [flat_map app length]. lia.
    - cbn [mems_toks comma_of app] in HS.
      destruct (key_kept _ _ _ _ _ _ _ _ _ _ _ HS WK EN) as (s1 & R1 & S1). rewrite <- !app_assoc in S1. cbn [app] in S1.
      destruct (goes_comma _ G1 _ _ _ _ _ _ _ _ _ S1) as (s2 & R2 & S2). rewrite <- ?app_assoc in S2. cbn [app] in S2.
      destruct (IH m' W2 G2 _ _ _ _ (d + ends (m_v m)) _ _ _ S2) as (s3 & R3 & S3).
      { intros _. exists (T ++ m_kx m ++ [58%N] ++ den (m_v m)). now rewrite <- !app_assoc. }
      exists s3. split; [eauto using reach_trans|].
      change (memTk m' ++ flat_map memTk ms) with (flat_map memTk (m' :: ms)). rewrite upd_app, app_length.
      fold (kept names (m' :: ms)). change (if negb (named names m') then m' :: filter (fun m => negb (named names m)) ms else filter (fun m => negb (named names m)) ms) with (kept names (m' :: ms)).
      cbn [map list_sum fold_right]. fold (list_sum (map (fun m => ends (m_v m)) (kept names (m' :: ms)))). refine (St_eq _ _ _ _ _ _ _ _ _ _ _ S3 _ _ eq_refl _); [|lia|lia].
      replace (closing T q (memText m :: map memText (kept names (m' :: ms))))
        with (closing (T ++ m_kx m ++ 58%N :: den (m_v m) ++ [44%N]) true (map memText (kept names (m' :: ms)))); [reflexivity|].
      unfold memText at 2. destruct (map memText (kept names (m' :: ms))) as [|y l]; cbn [closing].
      + replace (T ++ m_kx m ++ 58%N :: den (m_v m) ++ [44%N]) with ((T ++ m_kx m ++ 58%N :: den (m_v m)) ++ [44%N]) by (rewrite <- !app_assoc; reflexivity).
        rewrite removelast_last. cbn [commas]. rewrite <- !app_assoc. reflexivity.
      + rewrite commas_cons. repeat (rewrite <- app_assoc; cbn [app]). reflexivity.
  Qed.

  Lemma goes_all : forall v, wf_cst v -> goes v.
  Proof.
    induction v as [t x|es wcl IH|ms wcl IH] using cst_ind'; intros HW w r T q d rm n s EP HS.
    - destruct HW as [HK HX]. cbn [wtoks app] in HS. cbn [without dense stringEnds taken upd fold_left length]. rewrite !Nat.add_0_r.
      cbn in HK. assert (t <> TString /\ t <> TEnd /\ t <> TUnknown /\ t <> TObjectEnd /\ depthAfter t d d /\ tok_eqb t TListDelim = false) as (A1 & A2 & A3 & A4 & A5 & A6).
      { destruct HK as [<-|HK]; [discriminate EP|]. repeat (destruct HK as [<-|HK]; [repeat split; discriminate|]). destruct HK. }
      destruct (one _ _ _ _ _ _ _ d _ _ _ HS A1 A2 A3 ltac:(contradiction) A5) as (s1 & R1 & S1). exists s1. rewrite A6 in S1. auto.
    - apply wf_arr in HW as [_ HW]. rewrite wtoks_arr in HS. cbn [app] in HS. rewrite <- app_assoc in HS. cbn [app] in HS.
      destruct (one _ _ _ _ _ _ _ (S d) _ _ _ HS) as (s1 & R1 & S1); try discriminate; [reflexivity|]. cbn [tok_eqb] in S1.
      cbn [without dense stringEnds taken]. rewrite !map_map. cbn [e_v].
      destruct es as [|e es].
      + cbn [elts_toks app] in S1. destruct (one _ _ _ _ _ _ _ d _ _ _ S1) as (s2 & R2 & S2); try discriminate; [reflexivity|].
        exists s2. split; [eauto using reach_trans|]. cbn. rewrite !Nat.add_0_r. rewrite <- app_assoc in S2. exact S2.
      + cbn [elts_toks comma_of app] in S1. rewrite <- app_assoc in S1.
        assert (Forall (fun e => goes (e_v e)) (e :: es)) as HG.
        { rewrite Forall_forall in IH, HW |- *. intros y Hy. apply (IH y Hy). destruct (HW y Hy) as (_ & _ & Z). exact Z. }
        destruct (elts_go es e HG _ _ _ _ d _ _ _ S1) as (s2 & R2 & S2). exists s2. split; [eauto using reach_trans|].
        rewrite <- app_assoc in S2. replace (match rev (map (fun e0 => Elt (e_wc e0) (e_wl e0) (without names (e_v e0))) (e :: es)) with [] => 0 | e0 :: _ => if SComposer.plain (e_v e0) then 1 else 0 end)
          with (lastPlain (e :: es)); [exact S2|].
        unfold lastPlain. rewrite <- map_rev. destruct (rev (e :: es)); [reflexivity|]. cbn [map e_v]. now rewrite plain_without.
    - apply wf_obj in HW as [_ HW]. rewrite wtoks_obj in HS. cbn [app] in HS. rewrite <- app_assoc in HS. cbn [app] in HS.
      destruct (one _ _ _ _ _ _ _ (S d) _ _ _ HS) as (s1 & R1 & S1); try discriminate; [reflexivity|]. cbn [tok_eqb] in S1.
      rewrite without_obj. cbn [dense stringEnds taken]. rewrite !map_map. cbn [wmem m_v m_kx].
      destruct ms as [|m ms].
      + cbn [mems_toks app] in S1. destruct (one _ _ _ _ _ _ _ d _ _ _ S1) as (s2 & R2 & S2); try discriminate; [reflexivity|reflexivity|].
        exists s2. split; [eauto using reach_trans|]. cbn. rewrite !Nat.add_0_r. rewrite <- app_assoc in S2. exact S2.
      + cbn [mems_toks comma_of app] in S1. rewrite <- app_assoc in S1.
        assert (Forall (fun m => goes (m_v m)) (m :: ms)) as HG.
        { rewrite Forall_forall in IH, HW |- *. intros y Hy. apply (IH y Hy). specialize (HW y Hy). unfold wf_mem in HW. tauto. }
        destruct (mems_go ms m HW HG _ _ _ _ d _ _ _ S1) as (s2 & R2 & S2); [discriminate|]. exists s2. split; [eauto using reach_trans|].
        replace (T ++ [123%N] ++ commas (map (fun m0 => m_kx m0 ++ [58%N] ++ den (m_v m0)) (kept names (m :: ms))) ++ [125%N])
          with (closing (T ++ [123%N]) false (map memText (kept names (m :: ms)))); [exact S2|].
        unfold memText. destruct (map _ (kept names (m :: ms))) as [|y l]; cbn [closing commas app]; rewrite <- !app_assoc; reflexivity.
  Qed.
End Run.
