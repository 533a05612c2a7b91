(** Simple filters with other spacing: words that are split while they are read. *)
From Coq Require Import String.
From Verif Require Import Base MTokenizer MLit MFastVal MMath MBinTree SEvents MExpr MExprJson MText MSimple SUnicode SSimple STight
  PSimpleWords PSimpleField PSimple PSimpleCall PSimpleChain PSimpleFuel.
From Coq Require Import List NArith ZArith Arith Lia Bool.
Import ListNotations.
Open Scope nat_scope.

(** ** White space *)
Lemma white_char : forall u r, In u whites -> forall cur, fieldsFrom 0 cur (utf8 u ++ r) = match cur with [] => fieldsFrom 0 [] r | _ => cur :: fieldsFrom 0 [] r end.
Proof.
  intros u r H cur. cbn [whites In] in H.
  repeat (destruct H as [<- | H]; [match goal with |- fieldsFrom 0 cur (utf8 ?u ++ r) = _ => let x := eval vm_compute in (utf8 u) in change (utf8 u) with x end; destruct cur; destruct r as [|? [|? [|? ?]]]; reflexivity|]).
  destruct H.
Qed.
Lemma white_skip : forall g r, white g -> fieldsFrom 0 [] (g ++ r) = fieldsFrom 0 [] r.
Proof.
  intros g r (us & H & ->). induction H as [|u us Hu H IH]; [reflexivity|]. unfold utf8s in *. cbn [flat_map]. rewrite <- app_assoc.
  now rewrite (white_char u _ Hu []).
Qed.
Lemma white_cut : forall g r cur, white g -> g <> [] -> cur <> [] -> fieldsFrom 0 cur (g ++ r) = cur :: fieldsFrom 0 [] r.
Proof.
  intros g r cur (us & H & ->) HG HC. destruct H as [|u us Hu H]; [now contradiction HG|]. unfold utf8s. cbn [flat_map]. rewrite <- app_assoc.
  rewrite (white_char u _ Hu cur). destruct cur; [contradiction|]. f_equal. apply white_skip. now exists us.
Qed.
Lemma trail_fields : forall ws t, trail ws t -> Forall solid ws -> forall cur, cur <> [] -> fieldsFrom 0 cur t = cur :: ws.
Proof.
  intros ws t H. induction H as [g Hg|g w ws t Hg Hn H IH]; intros HS cur HC.
  - destruct g as [|c g]; [cbn; destruct cur; [contradiction|reflexivity]|]. rewrite <- (app_nil_r (c :: g)). rewrite white_cut by (auto; discriminate). reflexivity.
  - inversion HS as [|? ? [Hw1 Hw2] HS2]; subst. rewrite white_cut by auto. f_equal. rewrite fieldsFrom_solid by auto. cbn [app]. now apply IH.
Qed.
Lemma spread_fields : forall ws t, spread ws t -> Forall solid ws -> fields t = ws.
Proof.
  intros ws t H HS. unfold fields. destruct H as [g Hg|g w ws t Hg H].
  - rewrite <- (app_nil_r g). now rewrite white_skip.
  - inversion HS as [|? ? [Hw1 Hw2] HS2]; subst. rewrite white_skip by auto. rewrite fieldsFrom_solid by auto. cbn [app]. now apply (trail_fields ws).
Qed.

(** ** A word with an operator in it *)
Definition syms : list N := [33; 38; 60; 61; 62; 124; 126]%N.
Definition symOps : list bytes := map s2b ["=="; "="; "!="; "<"; "<="; ">"; ">="; "=~"]%string.
Definition clean (s : bytes) : Prop := Forall (fun c => ~ In c syms) s.
Definition symb (c : N) : bool := existsb (N.eqb c) syms.
Lemma symb_in : forall c, symb c = true <-> In c syms.
Proof. intros c. unfold symb. rewrite existsb_exists. split; [intros (x & Hx & E); apply N.eqb_eq in E; now subst|intro H; exists c; split; auto; apply N.eqb_refl]. Qed.
Lemma all_syms : forall x, forallb symb x = true -> Forall (fun c => In c syms) x.
Proof. intros x H. apply Forall_forall. intros c Hc. apply symb_in. rewrite forallb_forall in H. auto. Qed.
Lemma no_syms : forall x, forallb (fun c => negb (symb c)) x = true -> clean x.
Proof. intros x H. apply Forall_forall. intros c Hc HI. rewrite forallb_forall in H. specialize (H c Hc). apply symb_in in HI. rewrite HI in H. discriminate. Qed.
Lemma symOps_head : forall op, In op symOps -> exists c r, op = c :: r /\ In c syms /\ Forall (fun c => In c syms) op.
Proof.
  intros op H. assert (forallb (fun op => match op with [] => false | _ => forallb symb op end) symOps = true) as X by reflexivity.
  rewrite forallb_forall in X. specialize (X op H). destruct op as [|c r]; [discriminate|]. pose proof (all_syms _ X) as Y. exists c, r. inversion Y; auto.
Qed.
Lemma opTexts_kinds : forall x, In x opTexts -> x <> [] /\ (clean x \/ Forall (fun c => In c syms) x).
Proof.
  intros x H. assert (forallb (fun x => match x with [] => false | _ => forallb symb x || forallb (fun c => negb (symb c)) x end) opTexts = true) as X by reflexivity.
  rewrite forallb_forall in X. specialize (X x H). destruct x as [|c r]; [discriminate|]. split; [discriminate|]. apply orb_true_iff in X as [X|X]; [right; now apply all_syms|left; now apply no_syms].
Qed.
Lemma app_meet : forall (A : Type) (a b c d : list A), a ++ b = c ++ d -> (exists l, a = c ++ l /\ d = l ++ b) \/ (exists l, c = a ++ l /\ b = l ++ d).
Proof.
  induction a as [|x a IH]; intros b c d H; [right; exists c; auto|]. destruct c as [|y c]; [left; exists (x :: a); auto|].
  cbn in H. injection H as -> H. destruct (IH _ _ _ H) as [(l & -> & ->)|(l & -> & ->)]; [left|right]; exists l; auto.
Qed.

(** [s ++ op ++ v]: [s] without symbols and operators, [v] not starting with a symbol. *)
Record fused (s op v : bytes) : Prop := {
  fu_clean : clean s; fu_ops : noOps s; fu_open : ~ In (hd 0%N s) [40; 41]%N; fu_op : In op symOps; fu_any : s <> [] \/ v <> [];
  fu_v : v <> [] -> ~ In (hd 0%N v) syms; fu_end : hasSuffix v [40%N] = false /\ hasSuffix v [41%N] = false }.

Section Word.
  Variables s op v : bytes.
  Hypothesis HF : fused s op v.
  Let w := s ++ op ++ v.
  Lemma fused_sym : exists c, In c w /\ In c syms.
  Proof using HF. destruct (symOps_head op (fu_op _ _ _ HF)) as (c & r & E & HC & _). exists c. split; auto. unfold w. rewrite E. apply in_or_app. right. now left. Qed.
  Lemma fused_not : forall x, clean x -> bytes_eqb w x = false.
  Proof using HF. intros x HX. apply bytes_eqb_neq. intro E. destruct fused_sym as (c & HC & HS). rewrite E in HC. unfold clean in HX. rewrite Forall_forall in HX. now apply (HX c). Qed.
  Lemma fused_isOp : isOp w = false.
  Proof using HF.
    destruct (isOp w) eqn:E; auto. exfalso. apply isOp_in in E. destruct (opTexts_kinds _ E) as [_ [HC|HC]].
    - destruct fused_sym as (c & H1 & H2). unfold clean in HC. rewrite Forall_forall in HC. now apply (HC c).
    - rewrite Forall_forall in HC. destruct s as [|c s'] eqn:ES.
      + destruct v as [|c v'] eqn:EV; [destruct (fu_any _ _ _ HF); contradiction|]. apply (fu_v _ _ _ HF); [discriminate|]. apply HC. unfold w. apply in_or_app. right. apply in_or_app. right. now left.
      + pose proof (fu_clean _ _ _ HF) as HK. inversion HK as [|? ? Hc _]; subst. apply Hc, HC. now left.
  Qed.
  Lemma fused_num : isNum w = false.
  Proof using HF. apply wordy_isNum. destruct fused_sym as (c & H1 & H2). exists c. split; auto. cbn in H2. unfold digit. intuition (subst; lia). Qed.
  Lemma suffix_last : forall a b c, b <> [] -> hasSuffix (a ++ b) [c] = hasSuffix b [c].
  Proof using. intros a b c Hb. destruct (exists_last Hb) as (r & x & ->). rewrite app_assoc. unfold hasSuffix. rewrite !rev_app_distr. cbn [rev app hasPrefix]. destruct (rev r ++ rev a), (rev r); reflexivity. Qed.
  Lemma fused_suffix : hasSuffix w [40%N] = false /\ hasSuffix w [41%N] = false.
  Proof using HF.
    unfold w. destruct v as [|c v'] eqn:EV.
    - rewrite app_nil_r. pose proof (fu_op _ _ _ HF) as HO. cbn in HO. repeat (destruct HO as [<- | HO]; [rewrite !suffix_last by discriminate; split; reflexivity|]). destruct HO.
    - rewrite app_assoc, !suffix_last by discriminate. apply (fu_end _ _ _ HF).
  Qed.
  Lemma fused_prefix : hasPrefix w [40%N] = false /\ hasPrefix w [41%N] = false.
  Proof using HF.
    assert (exists c r, w = c :: r /\ c <> 40%N /\ c <> 41%N) as (c & r & -> & H1 & H2).
    { unfold w. pose proof (fu_open _ _ _ HF) as HP. destruct s as [|c s'] eqn:ES.
      - destruct (symOps_head op (fu_op _ _ _ HF)) as (c & r & E & HC & _). rewrite E. exists c, (r ++ v). split; [reflexivity|]. cbn in HC. intuition (subst; discriminate).
      - exists c, (s' ++ op ++ v). split; [reflexivity|]. cbn in HP. split; intro; subst; apply HP; auto. }
    cbn [hasPrefix]. split; apply andb_false_iff; left; apply N.eqb_neq; auto.
  Qed.
  Lemma fused_func : funcKey w = None.
  Proof using HF.
    unfold funcKey. apply find_none_all. intros [[n a] t]. cbn [fst snd]. unfold callArgs. rewrite (proj2 fused_suffix). rewrite andb_false_r. reflexivity.
  Qed.
End Word.

Lemma seekAt_stop : forall k n s, isOp (firstn n s) = false -> seekAt k n true s = Some (firstn (n - 1) s).
Proof. intros [|k] n s H; cbn [seekAt]; now rewrite H. Qed.
Lemma seekAt_here : forall op v, In op symOps -> (v <> [] -> ~ In (hd 0%N v) syms) -> seekAt (length (op ++ v)) 0 false (op ++ v) = Some op.
Proof.
  intros op v HO HV. destruct v as [|c v].
  - rewrite app_nil_r. cbn in HO. repeat (destruct HO as [<- | HO]; [reflexivity|]). destruct HO.
  - assert (isOp (op ++ [c]) = false) as HN.
    { destruct (isOp (op ++ [c])) eqn:E; auto. exfalso. apply isOp_in in E. destruct (symOps_head op HO) as (d & r & ED & HD & _).
      destruct (opTexts_kinds _ E) as [_ [HC|HC]]; unfold clean in *; rewrite Forall_forall in HC.
      - apply (HC d); auto. rewrite ED. now left.
      - apply HV; [discriminate|]. apply HC. apply in_or_app. right. now left. }
    cbn in HO. repeat (destruct HO as [<- | HO]; [cbn [app] in HN; cbn [app length seekAt firstn];
      repeat match goal with |- context [isOp ?x] => first [rewrite HN | change (isOp x) with true | change (isOp x) with false] end; cbv beta iota;
      first [reflexivity | rewrite seekAt_stop by exact HN; reflexivity]|]). destruct HO.
Qed.
Lemma fused_seek : forall s op v, fused s op v -> seekOp (s ++ op ++ v) = Some op.
Proof.
  intros s op v [H1 H2 _ H4 _ H6 _]. induction s as [|c s IH].
  - destruct (symOps_head op H4) as (c & r & E & _). cbn [app]. pose proof (seekAt_here op v H4 H6) as X. destruct (op ++ v) as [|d t] eqn:ET; [rewrite E in ET; discriminate|].
    cbn [seekOp]. now rewrite X.
  - inversion H1 as [|? ? Hc Hs]; subst. cbn [app seekOp]. rewrite seekAt_none; [apply IH; auto; eapply noOps_tail; eauto|]. intro m.
    destruct (isOp (firstn m (c :: s ++ op ++ v))) eqn:E; auto. exfalso. apply isOp_in in E. set (x := firstn m (c :: s ++ op ++ v)) in *.
    assert ((c :: s) ++ (op ++ v) = x ++ skipn m (c :: s ++ op ++ v)) as EX by (unfold x; now rewrite firstn_skipn).
    destruct (opTexts_kinds _ E) as [Hx HK]. assert (exists x', x = c :: x') as [x' Ex].
    { destruct x as [|y x']; [contradiction|]. cbn in EX. injection EX as -> _. eauto. }
    assert (clean x) as HCx by (destruct HK as [HK|HK]; auto; rewrite Ex in HK; inversion HK; contradiction).
    destruct (app_meet _ _ _ _ _ EX) as [(l & E1 & E2)|(l & E1 & E2)].
    + apply (H2 x [] l E). exact E1.
    + destruct l as [|d l].
      * rewrite app_nil_r in E1. apply (H2 x [] [] E). cbn [app]. now rewrite app_nil_r.
      * destruct (symOps_head op H4) as (d' & r & Eo & HD & _). rewrite Eo in E2. cbn in E2. injection E2 as -> _.
        unfold clean in HCx. rewrite Forall_forall in HCx. apply (HCx d); auto. rewrite E1. apply in_or_app. right. now left.
Qed.
Lemma fused_cut : forall s op v, fused s op v -> cut (s ++ op ++ v) op = Some (s, v).
Proof.
  intros s op v [H1 _ _ H4 _ _ _]. destruct (symOps_head op H4) as (d & r & Eo & HD & _). induction H1 as [|c s Hc Hs IH].
  - cbn [app]. rewrite Eo at 1. cbn [app cut]. change (d :: r ++ v) with ((d :: r) ++ v). rewrite <- Eo, hasPrefix_app, skipn_app, skipn_all, Nat.sub_diag. reflexivity.
  - cbn [app cut]. rewrite IH. destruct (hasPrefix (c :: s ++ op ++ v) op) eqn:E; auto. exfalso. rewrite Eo in E at 2. cbn [hasPrefix] in E.
    apply andb_true_iff in E as [E _]. apply N.eqb_eq in E. subst d. contradiction.
Qed.
Lemma dropSet_all : forall a b set, Forall (fun c => In c set) a -> dropSet (a ++ b) set = dropSet b set.
Proof.
  intros a b set H. induction H as [|c a Hc H IH]; [reflexivity|]. cbn [app dropSet]. assert (hasByte set c = true) as ->; auto.
  unfold hasByte. apply existsb_exists. exists c. split; auto. apply N.eqb_refl.
Qed.
Lemma dropSet_none : forall c a set, ~ In c set -> dropSet (c :: a) set = c :: a.
Proof.
  intros c a set H. cbn [dropSet]. destruct (hasByte set c) eqn:E; auto. exfalso. unfold hasByte in E. apply existsb_exists in E as (x & Hx & E). apply N.eqb_eq in E. now subst.
Qed.
Lemma trim_back : forall s op, clean s -> s <> [] -> In op symOps -> trimSet (s ++ op) op = s.
Proof.
  intros s op HS Hne HO. destruct (symOps_head op HO) as (d & r & Eo & HD & HA). unfold trimSet. unfold clean in HS. rewrite Forall_forall in HS, HA.
  assert (forall c, In c s -> ~ In c op) as X by (intros c Hc HI; apply (HS c Hc); auto).
  assert (dropSet (s ++ op) op = s ++ op) as -> by (destruct s as [|c t]; [contradiction|]; apply dropSet_none, X; now left).
  rewrite rev_app_distr, dropSet_all by (apply Forall_forall; intros x Hx; now apply in_rev).
  destruct (exists_last Hne) as (l & y & El). rewrite El, rev_app_distr. cbn [rev app]. rewrite dropSet_none by (apply X; rewrite El; apply in_or_app; right; now left).
  cbn [rev]. now rewrite rev_involutive.
Qed.
(** The pieces. *)
Definition piece (s : bytes) : list bytes := match s with [] => [] | _ => [s] end.
Lemma fused_split : forall s op v, fused s op v -> splitFirst (s ++ op ++ v) op = piece s ++ op :: piece v.
Proof.
  intros s op v HF. pose proof (fused_cut _ _ _ HF) as HC. destruct HF as [H1 H2 H3 H4 H5 H6 H7]. unfold splitFirst.
  assert (bytes_eqb (s ++ op ++ v) op = false) as ->.
  { apply bytes_eqb_neq. intro E. apply (f_equal (@length N)) in E. rewrite !app_length in E. destruct H5 as [H5|H5]; [destruct s|destruct v]; try contradiction; cbn [length] in E; lia. }
  rewrite HC. destruct s as [|c s]; [destruct v; [destruct H5; contradiction|reflexivity]|]. destruct v as [|d v]; [reflexivity|].
  rewrite trim_back by (auto; discriminate). reflexivity.
Qed.

Section Split.
  Variable o : oracles.
  (** Reading such a word where no value is expected: it is split and read again. *)
  Lemma get_split : forall s op v (pre post : list bytes) lf u sh T h ps f, fused s op v -> sc_mode u <> MdValue ->
    getToken o (S f) (mk (pre ++ (s ++ op ++ v) :: post) (length pre) lf u sh T h ps) = getToken o f (mk (pre ++ (piece s ++ op :: piece v) ++ post) (length pre) lf u sh T h ps).
  Proof.
    intros s op v pre post lf u sh T h ps f HF HM. cbn [getToken mk c_toks c_cur c_sub]. rewrite nth_error_app2, Nat.sub_diag by lia. cbn [nth_error]. cbv zeta.
    rewrite !(fused_not s op v HF) by (apply no_syms; reflexivity). cbn [orb]. rewrite (fused_isOp s op v HF). rewrite (fused_func s op v HF), (fused_seek s op v HF), (fused_split s op v HF).
    rewrite (proj1 (fused_prefix s op v HF)), (proj2 (fused_prefix s op v HF)), (proj1 (fused_suffix s op v HF)), (proj2 (fused_suffix s op v HF)), !andb_false_r.
    assert (putToks (mk (pre ++ (s ++ op ++ v) :: post) (length pre) lf u sh T h ps) (piece s ++ op :: piece v) = mk (pre ++ (piece s ++ op :: piece v) ++ post) (length pre) lf u sh T h ps) as EP.
    { unfold putToks, withToks. cbn [mk c_toks c_cur]. rewrite firstn_app, firstn_all, Nat.sub_diag. cbn [firstn]. rewrite app_nil_r.
      replace (skipn (S (length pre)) (pre ++ (s ++ op ++ v) :: post)) with post; [reflexivity|]. rewrite skipn_app. rewrite skipn_all2 by lia. replace (S (length pre) - length pre) with 1 by lia. reflexivity. }
    unfold valueCheck. rewrite (fused_num s op v HF).
    destruct (sc_mode u) eqn:EM; try contradiction; destruct (quotedBy 34 (s ++ op ++ v)), (quotedBy 39 (s ++ op ++ v)), (hasByte (s ++ op ++ v) 40 || hasByte (s ++ op ++ v) 41), (unfinishedQuote (s ++ op ++ v)); cbv beta iota; now rewrite EP.
  Qed.
  Lemma reads_split : forall s op v (pre post : list bytes) lf u sh T h ps q, fused s op v -> sc_mode u <> MdValue ->
    reads o (mk (pre ++ (piece s ++ op :: piece v) ++ post) (length pre) lf u sh T h ps) q -> reads o (mk (pre ++ (s ++ op ++ v) :: post) (length pre) lf u sh T h ps) q.
  Proof. intros s op v pre post lf u sh T h ps q HF HM [n H]. exists (S n). intros [|f] Hf; [lia|]. rewrite get_split by auto. apply H. lia. Qed.
  Lemma parses_same : forall c c2 R, (forall f, getToken o (S f) c = getToken o f c2) -> parses o c2 R -> parses o c R.
  Proof.
    intros c c2 R HG [n H]. exists (S (S n)). intros [|[|f]] Hf; [lia|lia|]. pose proof (H (S f) ltac:(lia)) as H1. rewrite <- (H (S (S f)) ltac:(lia)). cbn [parse] in *. rewrite HG.
    assert (getToken o f c2 <> OutOfFuel) as NF by (intro E; rewrite E in H1; discriminate).
    now rewrite (getToken_mono o c2 f (S f)) by (auto; lia).
  Qed.
  Lemma parses_back : forall c c1 t ty c2 c3 c4 r, reads o c (c1, t, ty, SNil) -> checkType c1 ty = (c2, SNil) ->
    insertNode c2 ty t = Ok c3 -> advance c3 = (c4, SNil) -> parses o c r -> parses o c4 r.
  Proof.
    intros c c1 t ty c2 c3 c4 r [n Hr] HC HI HA [m Hp]. exists (n + m). intros f Hf. pose proof (Hp (S f) ltac:(lia)) as H. cbn [parse] in H.
    rewrite Hr in H by lia. cbn [obind] in H. rewrite HC, HI in H. cbn [obind] in H. rewrite HA in H. exact H.
  Qed.
End Split.
