(** Proofs about member removal. *)
From Verif Require Import Base MTokenizer SJson MFastVal MExpr MMatcher PTokenizer MComposer SComposer.
From Coq Require Import List NArith ZArith Arith Lia Bool.
Import ListNotations.
Open Scope nat_scope.

Lemma beqb_eq : forall a b, bytes_eqb a b = true <-> a = b.
Proof.
  induction a; destruct b; cbn; split; intros; try discriminate; auto.
  - apply andb_true_iff in H as [E H]. apply N.eqb_eq in E. apply IHa in H. congruence.
  - injection H as -> ->. rewrite N.eqb_refl. cbn. now apply IHa.
Qed.
Lemma beqb_refl : forall a, bytes_eqb a a = true.
Proof. intros. now apply beqb_eq. Qed.

(** ** Fuel *)
Lemma valueLoop_fuel : forall fuel src pos d, pos <= length src -> length src - pos < fuel -> valueLoop fuel src pos d <> OutOfFuel.
Proof.
  induction fuel as [|f IH]; intros src pos d HP HF; [lia|]. cbn [valueLoop]. destruct (step src pos) as [t a b|] eqn:E; [|discriminate].
  destruct (step_progress _ _ _ _ _ HP E) as (H1 & H2 & H3 & H4).
  assert (t <> TEnd -> forall d, valueLoop f src b d <> OutOfFuel) as X by (intros Hn d'; apply IH; [lia|specialize (H3 Hn); lia]).
  destruct t; cbn [isLiteralToken]; try discriminate; try (apply X; discriminate); try (destruct (d =? 0); [discriminate|apply X; discriminate]);
    destruct d as [|[|d]]; try discriminate; apply X; discriminate.
Qed.
Lemma valueLoop_end : forall fuel src pos d e, pos <= length src -> valueLoop fuel src pos d = Ok e -> pos < e <= length src.
Proof.
  induction fuel as [|f IH]; intros src pos d e HP HF; [discriminate HF|]. cbn [valueLoop] in HF. destruct (step src pos) as [t a b|] eqn:E; [|discriminate HF].
  destruct (step_progress _ _ _ _ _ HP E) as (H1 & H2 & H3 & H4).
  assert (t <> TEnd -> forall d, valueLoop f src b d = Ok e -> pos < e <= length src) as X by (intros Hn d' HV; apply IH in HV; [specialize (H3 Hn); lia|lia]).
  assert (t <> TEnd -> Ok b = Ok e -> pos < e <= length src) as Y by (intros Hn HV; injection HV as <-; specialize (H3 Hn); lia).
  destruct t; cbn [isLiteralToken] in HF; try discriminate HF; try (eapply X; [discriminate|exact HF]);
    try (destruct (d =? 0); [eapply Y; [discriminate|exact HF]|eapply X; [discriminate|exact HF]]);
    destruct d as [|[|d]]; try discriminate HF; first [eapply Y; [discriminate|exact HF] | eapply X; [discriminate|exact HF]].
Qed.
Lemma valueLoop_mono : forall fuel src pos d, valueLoop fuel src pos d <> OutOfFuel -> forall g, valueLoop (fuel + g) src pos d = valueLoop fuel src pos d.
Proof.
  induction fuel as [|f IH]; intros src pos d HF g; [contradiction|]. cbn [Nat.add valueLoop] in *. destruct (step src pos) as [t a b|]; [|reflexivity].
  destruct t; cbn [isLiteralToken] in *; try reflexivity; try (now apply IH); try (destruct (d =? 0); [reflexivity|now apply IH]);
    destruct d as [|[|d]]; try reflexivity; now apply IH.
Qed.

(** ** Bounds: what has been written never exceeds what has been read *)
Definition rest (src : bytes) (c : composer) : nat * bytes := (length (c_body c), skipn (length src) (c_body c)).
Definition bounded (src : bytes) (z : nat * bytes) (s : cst8) : Prop :=
  k_pos s <= length src /\ c_pos (k_c s) <= k_pos s /\ length src <= length (c_body (k_c s))
  /\ (c_prev (k_c s) = TListDelim -> c_pos (k_c s) <> 0) /\ rest src (k_c s) = z.

Ltac bnd := unfold bounded; cbn [k_pos k_c k_depth k_rm k_n];
  repeat match goal with |- _ /\ _ => split end; auto; try lia;
  match goal with H : forall src, _ -> rest src ?c = _ |- rest _ ?c = _ => rewrite H by lia; auto end.
Lemma cwrite_ok : forall c x t, c_pos c + length x <= length (c_body c) -> (c_prev c = TListDelim -> c_pos c <> 0) -> x <> [] ->
  exists c', cwrite c x t = Ok c' /\ c_pos c' <= c_pos c + length x /\ length (c_body c') = length (c_body c) /\ (c_prev c' = TListDelim -> c_pos c' <> 0)
    /\ (forall src, c_pos c + length x <= length src -> rest src c' = rest src c).
Proof.
  intros c x t HL HP HX. unfold cwrite. set (back := tok_eqb t TObjectEnd && tok_eqb (c_prev c) TListDelim).
  assert (back && (c_pos c =? 0) = false) as ->.
  { destruct back eqn:E; [|reflexivity]. apply andb_true_iff in E as [_ E]. apply tok_eqb_eq in E. specialize (HP E). cbn. now apply Nat.eqb_neq. }
  set (p := if back then c_pos c - 1 else c_pos c). assert (p <= c_pos c) as Hp by (subst p; destruct back; lia).
  destruct (Nat.leb_spec (p + length x) (length (c_body c))); [|lia].
  eexists. split; [reflexivity|]. cbn [c_pos c_body c_prev].
  assert (length (firstn p (c_body c) ++ x ++ skipn (p + length x) (c_body c)) = length (c_body c)) as EL by (rewrite !app_length, firstn_length, skipn_length; lia).
  split; [lia|]. split; [exact EL|]. split; [destruct x; [contradiction|cbn; lia]|].
  intros src HS. unfold rest. cbn [c_body]. rewrite EL. f_equal.
  rewrite app_assoc, skipn_app, skipn_all2 by (rewrite app_length, firstn_length; lia). cbn [app].
  rewrite skipn_add, app_length, firstn_length. f_equal. lia.
Qed.

Lemma slice_len : forall src pos t a b, pos <= length src -> step src pos = SOk t a b -> t <> TEnd ->
  length (slice src a b) = b - a /\ slice src a b <> [] /\ pos <= a /\ a < b /\ b <= length src /\ (t = TString -> 2 <= b - a).
Proof.
  intros src pos t a b HP E HN. destruct (step_sound _ _ _ _ _ HP E) as (w & x & tail & E1 & _ & -> & -> & Es & Hl). rewrite Es.
  destruct Hl as [Hl|[Ht _]]; [|contradiction]. pose proof (lex_nonempty _ _ Hl). assert (0 < length x) by (destruct x; [contradiction|cbn; lia]).
  assert (length src = pos + length (w ++ x ++ tail)) as Hlen by (rewrite <- E1, skipn_length; lia). rewrite !app_length in Hlen.
  repeat split; auto; try lia. intros ->. inversion Hl; subst. cbn. rewrite app_length. cbn. lia.
Qed.

Lemma removeLoop_bounded : forall src z key names s m,
  bounded src z s -> match removeLoop src key names s m with
    | Ok (s', m') => bounded src z s' /\ k_pos s <= k_pos s' /\ (m' = m /\ s' = s \/ m' = true)
    | Err => True | _ => False end.
Proof.
  intros src z key names. induction names as [|nm r IH]; intros s m HB; cbn [removeLoop]; [auto|].
  destruct (negb (bytesEqualsString key nm)).
  - specialize (IH s m HB). destruct (removeLoop src key r s m) as [[s' m']| | |]; auto.
  - destruct HB as (B1 & B2 & B3 & B4 & B5). pose proof (valueLoop_fuel (S (length src)) src (k_pos s) 0 B1 ltac:(lia)) as HV.
    destruct (valueLoop (S (length src)) src (k_pos s) 0) as [e| | |] eqn:EV; try contradiction; cbn [obind]; auto.
    2: { exfalso. clear - EV. revert EV. generalize (S (length src)) as f, (k_pos s) as p, 0 as d. induction f as [|f IH]; intros p d; cbn [valueLoop]; [discriminate|].
         destruct (step src p) as [t a b|]; [|discriminate]. destruct t; cbn [isLiteralToken]; try discriminate; try apply IH; try (destruct (d =? 0); [discriminate|apply IH]);
         destruct d as [|[|d]]; try discriminate; apply IH. }
    apply valueLoop_end in EV; [|exact B1]. destruct (step src e) as [t a b|] eqn:E; [|exact I].
    destruct t; try exact I.
    + destruct (slice_len src e _ _ _ (proj2 EV) E ltac:(discriminate)) as (L1 & L2 & L3 & L4 & L5 & _).
      destruct (cwrite_ok (k_c s) (slice src a b) TObjectEnd) as (c' & -> & C1 & C2 & C3 & C4); auto; [rewrite L1; lia|]. cbn [obind].
      destruct (k_depth s) as [|d]; [exact I|].
      assert (bounded src z (C8 b c' d (rmap_set (k_rm s) nm (slice src (k_pos s) e)) (S (k_n s)))) as HB'.
      { rewrite L1 in C1, C4. bnd. }
      specialize (IH _ true HB'). destruct (removeLoop src key r _ true) as [[s' m']| | |]; auto. destruct IH as (I1 & I2 & I3). cbn in I2. split; auto. split; [lia|]. destruct I3 as [[-> _]| ->]; auto.
    + destruct (slice_len src e _ _ _ (proj2 EV) E ltac:(discriminate)) as (L1 & L2 & L3 & L4 & L5 & _).
      assert (bounded src z (C8 b (k_c s) (k_depth s) (rmap_set (k_rm s) nm (slice src (k_pos s) e)) (S (k_n s)))) as HB'.
      { bnd. }
      specialize (IH _ true HB'). destruct (removeLoop src key r _ true) as [[s' m']| | |]; auto. destruct IH as (I1 & I2 & I3). cbn in I2. split; auto. split; [lia|]. destruct I3 as [[-> _]| ->]; auto.
Qed.

Lemma mainLoop_bounded : forall fuel src z names s, bounded src z s -> length src - k_pos s < fuel ->
  match mainLoop fuel src names s with Ok s' => bounded src z s' | Err => True | _ => False end.
Proof.
  induction fuel as [|f IH]; intros src z names s HB HF; [lia|]. cbn [mainLoop].
  destruct HB as (B1 & B2 & B3 & B4 & B5).
  destruct (step src (k_pos s)) as [t a b|] eqn:E; [|exact I].
  assert (t <> TEnd -> length (slice src a b) = b - a /\ slice src a b <> [] /\ k_pos s <= a /\ a < b /\ b <= length src /\ (t = TString -> 2 <= b - a)) as SL
    by (intros Hn; now apply (slice_len src (k_pos s) t)).
  assert (t <> TEnd -> exists c', cwrite (k_c s) (slice src a b) t = Ok c' /\ forall d rm n, bounded src z (C8 b c' d rm n) /\ length src - k_pos (C8 b c' d rm n) < f) as W.
  { intros Hn. destruct (SL Hn) as (L1 & L2 & L3 & L4 & L5 & _).
    destruct (cwrite_ok (k_c s) (slice src a b) t) as (c' & Ec & C1 & C2 & C3 & C4); auto; [rewrite L1; lia|].
    exists c'. split; auto. intros. rewrite L1 in C1, C4. bnd. }
  assert (t = TEnd -> bounded src z (C8 b (k_c s) (k_depth s) (k_rm s) (k_n s))) as EN.
  { intros ->. destruct (step_progress _ _ _ _ _ B1 E) as (P1 & P2 & P3 & P4). bnd. }
  destruct t; try exact I; try (destruct (W ltac:(discriminate)) as (c' & Ec & HB'); rewrite Ec; cbn [obind]; apply IH; apply HB'); try (now apply EN).
  - destruct (k_depth s) as [|d]; [exact I|]. destruct (W ltac:(discriminate)) as (c' & Ec & HB'). rewrite Ec; cbn [obind]; apply IH; apply HB'.
  - destruct (k_depth s) as [|d]; [exact I|]. destruct (W ltac:(discriminate)) as (c' & Ec & HB'). rewrite Ec; cbn [obind]; apply IH; apply HB'.
  - destruct (W ltac:(discriminate)) as (c1 & Ec & HB1). destruct (SL ltac:(discriminate)) as (L1 & L2 & L3 & L4 & L5 & L6).
    destruct (step src b) as [t2 a2 b2|] eqn:E2; [|exact I].
    assert (t2 <> TEnd -> exists c', cwrite c1 (slice src a2 b2) t2 = Ok c' /\ forall d rm n, bounded src z (C8 b2 c' d rm n) /\ length src - k_pos (C8 b2 c' d rm n) < f) as W2.
    { intros Hn. destruct (slice_len src b t2 _ _ L5 E2 Hn) as (M1 & M2 & M3 & M4 & M5 & _). destruct (HB1 0 [] 0) as [(A1 & A2 & A3 & A4 & A6) A5]. cbn in *.
      destruct (cwrite_ok c1 (slice src a2 b2) t2) as (c' & Ec' & C1 & C2 & C3 & C4); auto; [rewrite M1; lia|].
      exists c'. split; auto. intros. rewrite M1 in C1, C4. bnd. }
    destruct t2; try exact I;
      try (rewrite Ec; cbn [obind]; destruct (W2 ltac:(discriminate)) as (c2 & Ec2 & HB2); rewrite Ec2; cbn [obind]; first [apply IH; apply HB2 | destruct (k_depth s); [exact I|apply IH; apply HB2]]).
    destruct (Nat.ltb_spec (b - a) 2); [specialize (L6 eq_refl); lia|].
    destruct (slice_len src b _ _ _ L5 E2 ltac:(discriminate)) as (M1 & M2 & M3 & M4 & M5 & _).
    assert (bounded src z (C8 b2 (k_c s) (k_depth s) (k_rm s) (k_n s))) as HB0 by bnd.
    pose proof (removeLoop_bounded src z (slice (slice src a b) 1 (b - a - 1)) names _ false HB0) as HR.
    destruct (removeLoop src _ names (C8 b2 (k_c s) (k_depth s) (k_rm s) (k_n s)) false) as [[s' m']| | |]; try exact HR. cbn [obind] in *.
    destruct HR as (R1 & R2 & R3). cbn [k_pos] in R2. destruct m'.
    + apply IH; auto. destruct R1. lia.
    + destruct R3 as [[_ ->]|R3]; [|discriminate R3]. cbn [k_c k_pos k_depth k_rm k_n]. rewrite Ec. cbn [obind].
      destruct (HB1 0 [] 0) as [(A1 & A2 & A3 & A4 & A6) A5]. cbn in A1, A2, A3, A4, A5.
      destruct (cwrite_ok c1 (slice src a2 b2) TString) as (c' & Ec' & C1 & C2 & C3 & C4); auto; [rewrite M1; lia|]. rewrite Ec'. cbn [obind].
      apply IH; [|cbn; lia]. rewrite M1 in C1, C4. bnd.
Qed.

Lemma mainLoop_mono : forall fuel src names s, mainLoop fuel src names s <> OutOfFuel -> forall g, mainLoop (fuel + g) src names s = mainLoop fuel src names s.
Proof.
  induction fuel as [|f IH]; intros src names s HF g; [contradiction|]. cbn [Nat.add mainLoop] in *. destruct (step src (k_pos s)) as [t a b|]; [|reflexivity].
  assert (forall c x t' (k : composer -> cst8), obind (cwrite c x t') (fun c => mainLoop f src names (k c)) <> OutOfFuel ->
    obind (cwrite c x t') (fun c => mainLoop (f + g) src names (k c)) = obind (cwrite c x t') (fun c => mainLoop f src names (k c))) as X.
  { intros c x t' k. destruct (cwrite c x t'); cbn [obind]; auto. }
  destruct t; try reflexivity; try (now apply X); try (destruct (k_depth s); [reflexivity|now apply X]).
  destruct (step src b) as [t2 a2 b2|]; [|reflexivity].
  destruct t2; try reflexivity;
    try (destruct (cwrite (k_c s) (slice src a b) TString) as [c1| | |]; cbn [obind] in *; try reflexivity;
         destruct (cwrite c1 (slice src a2 b2) _) as [c2| | |]; cbn [obind] in *; try reflexivity; first [now apply IH | destruct (k_depth s); [reflexivity|now apply IH]]).
  destruct (b - a <? 2); [reflexivity|]. destruct (removeLoop _ _ _ _ _) as [[s' m']| | |]; cbn [obind] in *; try reflexivity.
  destruct m'; [now apply IH|]. destruct (cwrite (k_c s') _ _) as [c1| | |]; cbn [obind] in *; try reflexivity.
  destruct (cwrite c1 _ _) as [c2| | |]; cbn [obind] in *; try reflexivity. now apply IH.
Qed.

(** ** The tokens still to be read *)
Definition here (src : bytes) (pos : nat) (l : list wtok) : Prop :=
  pos <= length src /\ skipn pos src = wrender l /\ wseq l [].
Lemma here_step : forall src pos w t x r, here src pos ((w, (t, x)) :: r) ->
  step src pos = SOk t (pos + length w) (pos + length w + length x)
  /\ slice src (pos + length w) (pos + length w + length x) = x /\ here src (pos + length w + length x) r.
Proof.
  intros src pos w t x r (HP & HS & HW). cbn [wrender] in HS. cbn [wseq] in HW. destruct HW as (W1 & W2 & W3 & W4). rewrite app_nil_r in W3.
  assert (length src = pos + length w + length x + length (wrender r)) as HL.
  { assert (length (skipn pos src) = length src - pos) by apply skipn_length. rewrite HS, !app_length in H. lia. }
  assert (skipn (pos + length w) src = x ++ wrender r) as S1 by now apply skipn_skipn_app.
  split; [now apply (step_complete src pos w t x (wrender r))|]. split; [now apply slice_from_skipn with (wrender r)|].
  split; [lia|]. split; auto. now apply skipn_skipn_app.
Qed.
Lemma here_end : forall src pos, here src pos [] -> exists q, step src pos = SOk TEnd q (length src).
Proof.
  intros src pos (HP & HS & _). destruct (step_end src pos) as (q & E & _); [rewrite HS; constructor|]. rewrite Nat.max_r in E by lia. eauto.
Qed.

(** ** Skipping a removed value *)
Definition skips (src : bytes) (pos d : nat) (pos' d' : nat) : Prop := exists k, forall f, valueLoop (k + f) src pos d = valueLoop f src pos' d'.
Lemma skips_trans : forall src p d p1 d1 p2 d2, skips src p d p1 d1 -> skips src p1 d1 p2 d2 -> skips src p d p2 d2.
Proof. intros src p d p1 d1 p2 d2 (k & A) (k' & B). exists (k + k'). intro f. now rewrite <- Nat.add_assoc, A, B. Qed.
Lemma skips_refl : forall src p d, skips src p d p d.
Proof. intros. exists 0. auto. Qed.
Lemma skips_one : forall src p d w t x r d', here src p ((w, (t, x)) :: r) ->
  (isLiteralToken t = true /\ d <> 0 /\ d' = d \/ (t = TObjectStart \/ t = TArrayStart) /\ d' = S d
   \/ (t = TObjectEnd \/ t = TArrayEnd) /\ d = S d' /\ d' <> 0 \/ (t = TListDelim \/ t = TObjectKeyDelim) /\ d' = d) ->
  skips src p d (p + length w + length x) d' /\ here src (p + length w + length x) r.
Proof.
  intros src p d w t x r d' H C. destruct (here_step _ _ _ _ _ _ H) as (E & _ & H'). split; auto. exists 1. intro f. cbn [Nat.add valueLoop]. rewrite E.
  destruct C as [(L & D & ->)|[([-> | ->] & ->)|[([-> | ->] & -> & D)|([-> | ->] & ->)]]]; cbn [isLiteralToken]; auto; try (destruct d' as [|d']; [contradiction|reflexivity]).
  rewrite L. destruct (Nat.eqb_spec d 0); [contradiction|reflexivity].
Qed.
Lemma lit_token : forall t, lit_kind t -> isLiteralToken t = true.
Proof. intros t H. cbn in H. repeat (destruct H as [<-|H]; [reflexivity|]). destruct H. Qed.
Lemma key_token : forall t, key_kind t -> isLiteralToken t = true.
Proof. intros t H. cbn in H. repeat (destruct H as [<-|H]; [reflexivity|]). destruct H. Qed.

Definition skipsIn (src : bytes) (v : cst) : Prop := forall w p d r, here src p (wtoks w v ++ r) ->
  skips src p (S d) (p + length w + length (render v)) (S d) /\ here src (p + length w + length (render v)) r.
Lemma skip_elts : forall src es, Forall (fun e => skipsIn src (e_v e)) es -> forall first p d r, here src p (elts_toks first es ++ r) ->
  exists p', skips src p (S d) p' (S d) /\ here src p' r /\ p' = p + length (wrender (elts_toks first es)).
Proof.
  intros src es HF. induction HF as [|e es He _ IH]; intros first p d r H.
  - exists p. split; [apply skips_refl|]. split; [exact H|cbn; lia].
  - cbn [elts_toks] in *. rewrite <- !app_assoc in H.
    assert (exists p1, skips src p (S d) p1 (S d) /\ here src p1 (wtoks (e_wl e) (e_v e) ++ elts_toks false es ++ r) /\ p1 = p + length (wrender (comma_of first (e_wc e)))) as (p1 & S1 & H1 & E1).
    { destruct first; cbn [comma_of app] in H.
      - exists p. split; [apply skips_refl|]. split; [exact H|cbn; lia].
      - destruct (skips_one _ _ (S d) _ _ _ _ (S d) H) as [X Y]; [right; right; right; auto|]. eexists. split; [exact X|]. split; [exact Y|]. cbn. rewrite app_length. cbn. lia. }
    destruct (He _ _ d _ H1) as [S2 H2]. destruct (IH _ _ d _ H2) as (p3 & S3 & H3 & E3). exists p3.
    split; [eauto using skips_trans|]. split; auto. rewrite !wrender_app, !app_length, wtoks_lead, app_length. lia.
Qed.
Lemma skip_mems : forall src ms, Forall wf_mem ms -> Forall (fun m => skipsIn src (m_v m)) ms -> forall first p d r, here src p (mems_toks first ms ++ r) ->
  exists p', skips src p (S d) p' (S d) /\ here src p' r /\ p' = p + length (wrender (mems_toks first ms)).
Proof.
  intros src ms HW HF. induction HF as [|m ms He _ IH]; intros first p d r H.
  - exists p. split; [apply skips_refl|]. split; [exact H|cbn; lia].
  - inversion HW as [|m' ms' W1 W2]; subst. specialize (IH W2). cbn [mems_toks] in *. rewrite <- !app_assoc in H. cbn [app] in H. rewrite <- !app_assoc in H.
    match type of H with here _ _ (_ ++ ?y) => assert (exists p1, skips src p (S d) p1 (S d) /\ here src p1 y /\ p1 = p + length (wrender (comma_of first (m_wc m)))) as (p1 & S1 & H1 & E1) end.
    { destruct first; cbn [comma_of app] in H.
      - exists p. split; [apply skips_refl|]. split; [exact H|cbn; lia].
      - destruct (skips_one _ _ (S d) _ _ _ _ (S d) H) as [X Y]; [right; right; right; auto|]. eexists. split; [exact X|]. split; [exact Y|]. cbn. rewrite app_length. cbn. lia. }
    assert (key_kind (m_kt m)) as HK by (unfold wf_mem in W1; tauto).
    destruct (skips_one _ _ (S d) _ _ _ _ (S d) H1) as [S2 H2]; [left; auto using key_token|].
    destruct (skips_one _ _ (S d) _ _ _ _ (S d) H2) as [S3 H3]; [right; right; right; auto|].
    destruct (He _ _ d _ H3) as [S4 H4]. destruct (IH _ _ d _ H4) as (p5 & S5 & H5 & E5). exists p5.
    split; [eauto 7 using skips_trans|]. split; auto. repeat (rewrite ?wrender_app, ?app_length, ?wtoks_lead; cbn [wrender length]). cbn [length] in *. lia.
Qed.
Lemma skips_value : forall src v, wf_cst v -> skipsIn src v.
Proof.
  intro src. induction v as [t x|es wcl IH|ms wcl IH] using cst_ind'; intros HW w p d r H.
  - cbn [wtoks app] in H. rewrite render_lit. apply (skips_one _ _ _ _ _ _ _ _ H). left. destruct HW. auto using lit_token.
  - apply wf_arr in HW as [_ HW]. rewrite wtoks_arr in H. cbn [app] in H. rewrite <- app_assoc in H.
    assert (Forall (fun e => skipsIn src (e_v e)) es) as HF.
    { rewrite Forall_forall in IH, HW |- *. intros e He. apply (IH e He). destruct (HW e He) as (_ & _ & X). exact X. }
    destruct (skips_one _ _ (S d) _ _ _ _ (S (S d)) H) as [S1 H1]; [right; left; auto|].
    destruct (skip_elts _ _ HF _ _ (S d) _ H1) as (p2 & S2 & H2 & E2). cbn [app] in H2.
    destruct (skips_one _ _ (S (S d)) _ _ _ _ (S d) H2) as [S3 H3]; [right; right; left; auto|].
    rewrite render_arr. unfold render_elts. replace (p + length w + length _) with (p2 + length wcl + 1) by (cbn [length]; rewrite !app_length; cbn [length] in *; lia).
    split; [eauto using skips_trans|exact H3].
  - apply wf_obj in HW as [_ HW]. rewrite wtoks_obj in H. cbn [app] in H. rewrite <- app_assoc in H.
    assert (Forall (fun m => skipsIn src (m_v m)) ms) as HF.
    { rewrite Forall_forall in IH, HW |- *. intros m Hm. apply (IH m Hm). specialize (HW m Hm). unfold wf_mem in HW. tauto. }
    destruct (skips_one _ _ (S d) _ _ _ _ (S (S d)) H) as [S1 H1]; [right; left; auto|].
    destruct (skip_mems _ _ HW HF _ _ (S d) _ H1) as (p2 & S2 & H2 & E2). cbn [app] in H2.
    destruct (skips_one _ _ (S (S d)) _ _ _ _ (S d) H2) as [S3 H3]; [right; right; left; auto|].
    rewrite render_obj. unfold render_mems. replace (p + length w + length _) with (p2 + length wcl + 1) by (cbn [length]; rewrite !app_length; cbn [length] in *; lia).
    split; [eauto using skips_trans|exact H3].
Qed.

(** The whole removed value, from outside. *)
Lemma valueLoop_value : forall src v w p r, wf_cst v -> here src p (wtoks w v ++ r) ->
  valueLoop (S (length src)) src p 0 = Ok (p + length w + length (render v)) /\ here src (p + length w + length (render v)) r.
Proof.
  intros src v w p r HW H.
  assert (exists k, valueLoop k src p 0 = Ok (p + length w + length (render v)) /\ here src (p + length w + length (render v)) r) as (k & E & H').
  { destruct v as [t x|es wcl|ms wcl].
    - destruct HW as [HW _]. cbn [wtoks app] in H. rewrite render_lit. destruct (here_step _ _ _ _ _ _ H) as (E & _ & H1). exists 1. split; auto.
      cbn [valueLoop]. now rewrite E, (lit_token _ HW).
    - apply wf_arr in HW as [_ HW]. rewrite wtoks_arr in H. cbn [app] in H. rewrite <- app_assoc in H.
      assert (Forall (fun e => skipsIn src (e_v e)) es) as HF.
      { rewrite Forall_forall in HW |- *. intros e He. apply skips_value. destruct (HW e He) as (_ & _ & X). exact X. }
      destruct (skips_one _ _ 0 _ _ _ _ 1 H) as [(k1 & S1) H1]; [right; left; auto|].
      destruct (skip_elts _ _ HF _ _ 0 _ H1) as (p2 & (k2 & S2) & H2 & E2). cbn [app] in H2. destruct (here_step _ _ _ _ _ _ H2) as (E3 & _ & H3).
      exists (k1 + (k2 + 1)). rewrite S1, S2. cbn [valueLoop]. rewrite E3. cbn [isLiteralToken].
      rewrite render_arr. unfold render_elts. replace (p + length w + length _) with (p2 + length wcl + 1) by (cbn [length]; rewrite !app_length; cbn [length] in *; lia). auto.
    - apply wf_obj in HW as [_ HW]. rewrite wtoks_obj in H. cbn [app] in H. rewrite <- app_assoc in H.
      assert (Forall (fun m => skipsIn src (m_v m)) ms) as HF.
      { rewrite Forall_forall in HW |- *. intros m Hm. apply skips_value. specialize (HW m Hm). unfold wf_mem in HW. tauto. }
      destruct (skips_one _ _ 0 _ _ _ _ 1 H) as [(k1 & S1) H1]; [right; left; auto|].
      destruct (skip_mems _ _ HW HF _ _ 0 _ H1) as (p2 & (k2 & S2) & H2 & E2). cbn [app] in H2. destruct (here_step _ _ _ _ _ _ H2) as (E3 & _ & H3).
      exists (k1 + (k2 + 1)). rewrite S1, S2. cbn [valueLoop]. rewrite E3. cbn [isLiteralToken].
      rewrite render_obj. unfold render_mems. replace (p + length w + length _) with (p2 + length wcl + 1) by (cbn [length]; rewrite !app_length; cbn [length] in *; lia). auto. }
  split; auto. destruct H as (HP & _).
  pose proof (valueLoop_mono k src p 0 ltac:(rewrite E; discriminate) (S (length src))) as A.
  pose proof (valueLoop_mono (S (length src)) src p 0 ltac:(apply valueLoop_fuel; lia) k) as B.
  rewrite Nat.add_comm in B. rewrite <- B, A. exact E.
Qed.
