(** Words of a simple filter: splitting, and reading one word. *)
From Coq Require Import String.
From Verif Require Import Base MTokenizer MLit MFastVal MMath MBinTree SEvents MExpr MExprJson MText MSimple SSimple.
From Coq Require Import List NArith ZArith Arith Lia Bool.
Import ListNotations.
Open Scope nat_scope.

(** ** Strings *)
Lemma hasPrefix_spec : forall p s, hasPrefix s p = true <-> exists r, s = p ++ r.
Proof.
  induction p as [|a p IH]; intros s; [split; [intros _; now exists s|destruct s; reflexivity]|].
  destruct s as [|b s]; [split; [discriminate|intros [r H]; discriminate]|]. cbn [hasPrefix].
  rewrite andb_true_iff, IH. split.
  - intros [H [r ->]]. apply N.eqb_eq in H. subst. now exists r.
  - intros [r H]. injection H as -> ->. rewrite N.eqb_refl. eauto.
Qed.
Lemma hasPrefix_app : forall p r, hasPrefix (p ++ r) p = true.
Proof. intros. apply hasPrefix_spec. eauto. Qed.
Lemma hasSuffix_spec : forall s p, hasSuffix s p = true <-> exists r, s = r ++ p.
Proof.
  intros. unfold hasSuffix. rewrite hasPrefix_spec. split; intros [r H].
  - exists (rev r). rewrite <- (rev_involutive s), H, rev_app_distr, rev_involutive. reflexivity.
  - subst. exists (rev r). apply rev_app_distr.
Qed.
Lemma hasSuffix_app : forall r p, hasSuffix (r ++ p) p = true.
Proof. intros. apply hasSuffix_spec. eauto. Qed.
Lemma trimPrefix_app : forall p r, trimPrefix (p ++ r) p = r.
Proof.
  intros. unfold trimPrefix. rewrite hasPrefix_app. rewrite skipn_app, skipn_all, Nat.sub_diag. reflexivity.
Qed.
Lemma trimSuffix_app : forall r p, trimSuffix (r ++ p) p = r.
Proof.
  intros. unfold trimSuffix. rewrite hasSuffix_app, app_length.
  replace (length r + length p - length p) with (length r) by lia. rewrite firstn_app, firstn_all, Nat.sub_diag. cbn [firstn]. apply app_nil_r.
Qed.
Lemma without_in : forall w l c, without w l -> In c w -> ~ In c l.
Proof. intros w l c H HI. unfold without in H. rewrite Forall_forall in H. auto. Qed.
Lemma hasByte_without : forall w l c, without w l -> In c l -> hasByte w c = false.
Proof.
  intros w l c H HI. unfold hasByte. destruct (existsb (N.eqb c) w) eqn:E; auto.
  apply existsb_exists in E as (x & Hx & E). apply N.eqb_eq in E. subst. exfalso. eapply without_in; eauto.
Qed.
Lemma suffix_without : forall w l c, without w l -> In c l -> hasSuffix w [c] = false.
Proof.
  intros w l c H HI. destruct (hasSuffix w [c]) eqn:E; auto. apply hasSuffix_spec in E as [r ->].
  exfalso. eapply (without_in _ _ c); eauto. apply in_or_app. right. now left.
Qed.
Lemma prefix_without : forall w l c, without w l -> In c l -> hasPrefix w [c] = false.
Proof.
  intros w l c H HI. destruct (hasPrefix w [c]) eqn:E; auto. apply hasPrefix_spec in E as [r ->].
  exfalso. eapply (without_in _ _ c); eauto. now left.
Qed.
Lemma isOneOf_spec : forall s l, isOneOf s l = true <-> In s l.
Proof.
  intros. unfold isOneOf. rewrite existsb_exists. split.
  - intros (x & Hx & E). apply bytes_eqb_eq in E. now subst.
  - intros H. exists s. split; auto. now apply bytes_eqb_eq.
Qed.

(** ** Splitting at white space *)
Lemma solid_width : forall c r, ~ In c [9; 10; 11; 12; 13; 32; 194; 225; 226; 227]%N -> spaceWidth (c :: r) = 0.
Proof.
  intros c r H. assert (forall x, In x [9; 10; 11; 12; 13; 32; 194; 225; 226; 227]%N -> N.eqb c x = false) as X.
  { intros x Hx. apply N.eqb_neq. intros ->. auto. }
  unfold spaceWidth. cbn [existsb]. rewrite !X by (cbn; tauto). cbn [orb andb]. destruct r as [|d [|e r]]; reflexivity.
Qed.
Lemma fieldsFrom_solid : forall w cur r, Forall (fun c => ~ In c [9; 10; 11; 12; 13; 32; 194; 225; 226; 227]%N) w ->
  fieldsFrom 0 cur (w ++ r) = fieldsFrom 0 (cur ++ w) r.
Proof.
  induction w as [|c w IH]; intros cur r H; [now rewrite app_nil_r|].
  inversion H as [|? ? Hc Hw]; subst. cbn [app fieldsFrom]. rewrite solid_width by auto. rewrite IH by auto.
  now rewrite <- app_assoc.
Qed.
Lemma fields_solid : forall w, solid w -> fields w = [w].
Proof.
  intros w [Hn H]. unfold fields. rewrite <- (app_nil_r w) at 1. rewrite fieldsFrom_solid by auto. cbn [app fieldsFrom].
  destruct w; [contradiction|reflexivity].
Qed.
Lemma fields_cons : forall w r, solid w -> fields (w ++ [32%N] ++ r) = w :: fields r.
Proof.
  intros w r [Hn H]. unfold fields. rewrite fieldsFrom_solid by auto. cbn [app fieldsFrom].
  replace (spaceWidth (32%N :: r)) with 1 by reflexivity. destruct w; [contradiction|reflexivity].
Qed.
Lemma fields_words : forall ws, Forall solid ws -> fields (joinBy [32%N] ws) = ws.
Proof.
  induction ws as [|w ws IH]; intros H; [reflexivity|]. inversion H; subst. cbn [joinBy].
  destruct ws; [now apply fields_solid|]. rewrite fields_cons by auto. now rewrite IH.
Qed.

(** The text is its words separated by single spaces. *)
Lemma joinBy_app : forall sep a b, a <> [] -> b <> [] -> joinBy sep (a ++ b) = joinBy sep a ++ sep ++ joinBy sep b.
Proof.
  induction a as [|x a IH]; intros b Ha Hb; [contradiction|]. destruct a as [|y a].
  - cbn [app joinBy]. destruct b; [contradiction|reflexivity].
  - change ((x :: y :: a) ++ b) with (x :: ((y :: a) ++ b)).
    replace (joinBy sep (x :: (y :: a) ++ b)) with (x ++ sep ++ joinBy sep ((y :: a) ++ b)) by reflexivity.
    rewrite IH by (auto; discriminate). cbn [joinBy]. now rewrite !app_assoc.
Qed.
Lemma strWords_text : forall q ws, joinBy [32%N] (strWords q ws) = [q] ++ joinBy [32%N] ws ++ [q].
Proof.
  intros q [|w r]; [reflexivity|]. unfold strWords. destruct (rev r) as [|l m] eqn:E.
  - apply (f_equal (@rev bytes)) in E. rewrite rev_involutive in E. cbn in E. now subst.
  - apply (f_equal (@rev bytes)) in E. rewrite rev_involutive in E. cbn [rev] in E. subst r.
    change (w :: rev m ++ [l]) with ((w :: rev m) ++ [l]). change (([q] ++ w) :: rev m ++ [l ++ [q]]) with ((([q] ++ w) :: rev m) ++ [l ++ [q]]).
    rewrite !joinBy_app by discriminate. cbn [joinBy]. rewrite <- !app_assoc.
    destruct (rev m); cbn [app]; rewrite <- ?app_assoc; reflexivity.
Qed.
Lemma strWords_ne : forall q ws, strWords q ws <> [].
Proof. intros q [|w r]; [discriminate|]. unfold strWords. destruct (rev r); discriminate. Qed.
Lemma valWords_text : forall v, joinBy [32%N] (valWords v) = valText v.
Proof. intros [n d|n d x f|d ws|b]; try reflexivity. cbn [valWords]. rewrite strWords_text. reflexivity. Qed.
Lemma valWords_ne : forall v, valWords v <> [].
Proof. intros [n d|n d x f|d ws|b]; try discriminate. apply strWords_ne. Qed.
Lemma testWords_text : forall t, joinBy [32%N] (testWords t) = testText t.
Proof.
  intros [op v|op v|l d re| | | |]; try reflexivity; cbn [testWords testText].
  - rewrite <- valWords_text. pose proof (valWords_ne v). cbn [joinBy]. destruct (valWords v); [contradiction|reflexivity].
  - destruct l; reflexivity.
Qed.
Lemma testWords_ne : forall t, testWords t <> [].
Proof. intros [op v|op v|[] d re| | | |]; discriminate. Qed.
Lemma atomWords_text : forall a, joinBy [32%N] (atomWords a) = atomText a.
Proof.
  intros a. unfold atomWords, atomText. rewrite <- testWords_text. pose proof (testWords_ne (a_test a)). cbn [joinBy].
  destruct (testWords (a_test a)); [contradiction|reflexivity].
Qed.
Lemma restWords_text : forall r w, w <> [] ->
  joinBy [32%N] (w ++ restWords r) = joinBy [32%N] w ++ concat (map (fun p => [32%N] ++ joinText (fst p) ++ [32%N] ++ atomText (snd p)) r).
Proof.
  induction r as [|[j a] r IH]; intros w Hw; [cbn; now rewrite !app_nil_r|].
  unfold restWords. cbn [map concat fst snd]. fold (restWords r).
  change (joinText j :: atomWords a) with ([joinText j] ++ atomWords a).
  rewrite app_assoc. rewrite IH by (destruct w; discriminate). rewrite joinBy_app by (auto; discriminate).
  rewrite (joinBy_app _ [joinText j]) by discriminate. rewrite atomWords_text. cbn [joinBy]. now rewrite <- !app_assoc.
Qed.
Lemma chainWords_text : forall c, joinBy [32%N] (chainWords c) = chainText c.
Proof. intros c. unfold chainWords. rewrite restWords_text by discriminate. now rewrite atomWords_text. Qed.

Ltac solids := split; [discriminate|repeat constructor; cbn; intuition discriminate].
Lemma solid_app : forall a b, solid a -> Forall (fun c => ~ In c [9; 10; 11; 12; 13; 32; 194; 225; 226; 227]%N) b -> solid (a ++ b).
Proof. intros a b [H1 H2] H. split; [destruct a; [contradiction|discriminate]|now apply Forall_app]. Qed.
Lemma solid_quote : forall d, solid [quote d].
Proof. intros []; solids. Qed.
Lemma solid_quoted : forall d w, solid w -> solid ([quote d] ++ w ++ [quote d]).
Proof.
  intros d w H. apply solid_app; [apply solid_quote|]. apply Forall_app. split; [apply H|apply solid_quote].
Qed.
Lemma strWords_solid : forall d ws, Forall solid ws -> Forall solid (strWords (quote d) ws).
Proof.
  intros d [|w r] H; [constructor; [destruct d; solids|constructor]|]. inversion H as [|? ? Hw Hr]; subst. unfold strWords.
  destruct (rev r) as [|l m] eqn:E; [constructor; [now apply solid_quoted|constructor]|].
  apply Forall_rev in Hr. rewrite E in Hr. inversion Hr; subst. constructor; [apply solid_app; [apply solid_quote|apply Hw]|].
  apply Forall_app. split; [now apply Forall_rev|]. constructor; [apply solid_app; [auto|apply solid_quote]|constructor].
Qed.
Lemma digits_solid : forall ds, Forall digit ds -> Forall (fun c => ~ In c [9; 10; 11; 12; 13; 32; 194; 225; 226; 227]%N) ds.
Proof. intros ds H. eapply Forall_impl; [|exact H]. unfold digit. intros c Hc X. cbn in X. intuition (subst; lia). Qed.
Lemma valWords_solid : forall o v, valOk o v -> Forall solid (valWords v).
Proof.
  intros o [n ds|n ds fs f|d ws|b] H; cbn [valWords]; cbn [valOk] in H.
  - constructor; [|constructor]. destruct H as (H1 & H2 & _). cbn [valText]. split; [destruct n; [discriminate|auto]|].
    apply Forall_app. split; [destruct n; repeat constructor; cbn; intuition discriminate|now apply digits_solid].
  - constructor; [|constructor]. destruct H as (H1 & H2 & _ & H3 & H4 & _). cbn [valText]. split; [destruct n, ds; discriminate|].
    apply Forall_app. split; [apply Forall_app; split; [destruct n; repeat constructor; cbn; intuition discriminate|now apply digits_solid]|].
    constructor; [cbn; intuition discriminate|now apply digits_solid].
  - apply strWords_solid. apply H.
  - constructor; [destruct b; solids|constructor].
Qed.
Definition solidly (w : bytes) : Prop := Forall (fun c => ~ In c [9; 10; 11; 12; 13; 32; 194; 225; 226; 227]%N) w.
Lemma joinBy_solidly : forall sep l, solidly sep -> Forall solidly l -> solidly (joinBy sep l).
Proof.
  intros sep l HS H. induction H as [|a l Ha H IH]; [constructor|]. cbn [joinBy]. destruct l as [|b l]; auto.
  apply Forall_app. split; auto. apply Forall_app. split; auto.
Qed.
Lemma arg_solid : forall o a, argOk o a -> solid (argText a).
Proof.
  intros o. induction a as [l|n f IH r]; intro H; [apply H|]. destruct H as (HN & HF & HR & _). cbn [argText].
  assert (solid n) as HS by (assert (In n (map fst (funs1 ++ funs2))) as HI by (rewrite map_app; apply in_or_app; tauto); cbn in HI; repeat (destruct HI as [<- | HI]; [solids|]); destruct HI).
  apply solid_app; [exact HS|]. apply Forall_app. split; [repeat constructor; cbn; intuition discriminate|]. apply Forall_app. split; [|repeat constructor; cbn; intuition discriminate]. apply joinBy_solidly; [unfold solidly; repeat constructor; cbn; intuition discriminate|].
  constructor; [now apply IH|]. apply Forall_map. eapply Forall_impl; [|exact HR]. intros l (X & _). apply X.
Qed.
Lemma testWords_solid : forall k t, testOk k t -> Forall solid (testWords t).
Proof.
  intros k [op v|op v|l d re| | | |] H; cbn [testWords]; cbn [testOk] in H; try solve [repeat (constructor; [solids|]); constructor].
  - constructor; [destruct op; solids|apply (valWords_solid k); tauto].
  - constructor; [destruct op; solids|constructor; [eapply arg_solid; apply H|constructor]].
  - destruct l; repeat (constructor; [solids|]); (constructor; [|constructor]); apply solid_quoted; tauto.
Qed.
Lemma atomWords_solid : forall k a, atomOk k a -> Forall solid (atomWords a).
Proof. intros k a [H1 H2]. constructor; [|eapply testWords_solid; eauto]. destruct (a_subj a) as [[p|v]|n f r]; [apply H1|destruct H1|eapply arg_solid; exact H1]. Qed.
Lemma joinText_solid : forall j, solid (joinText j).
Proof. intros []; solids. Qed.
Lemma chain_fields : forall k c, chainOk k c -> fields (chainText c) = chainWords c.
Proof.
  intros k c [H1 H2]. rewrite <- chainWords_text. apply fields_words. apply Forall_app. split; [eapply atomWords_solid; eauto|].
  unfold restWords. induction (ch_rest c) as [|[j a] r IH]; [constructor|]. inversion H2 as [|? ? Ha Hr]; subst. cbn [map concat fst snd].
  apply Forall_app. split; [|auto]. constructor; [apply joinText_solid|eapply atomWords_solid; eauto].
Qed.
Lemma short_spec : forall c, shortCircuit (chainWords c) = true <-> oneSymbol c.
Proof.
  intros c. unfold shortCircuit, oneSymbol. set (w := chainWords c).
  pose proof (isOneOf_spec (s2b "&&") w) as A. pose proof (isOneOf_spec (s2b "||") w) as B.
  destruct (isOneOf (s2b "&&") w), (isOneOf (s2b "||") w); cbn [xorb]; split; intros H; try discriminate; intuition congruence.
Qed.

(** ** What a word is not *)
Lemma isOp_in : forall w, isOp w = true -> In w opTexts.
Proof. intros w H. apply isOneOf_spec in H. cbn in *. intuition. Qed.
Lemma noOps_isOp : forall w, noOps w -> isOp w = false.
Proof. intros w H. destruct (isOp w) eqn:E; auto. apply isOp_in in E. exfalso. apply (H w [] [] E). cbn. now rewrite app_nil_r. Qed.
Lemma seekAt_none : forall s, (forall m, isOp (firstn m s) = false) -> forall k n, seekAt k n false s = None.
Proof. intros s H. induction k as [|k IH]; intros n; cbn [seekAt]; rewrite H; auto. Qed.
Lemma noOps_tail : forall c w, noOps (c :: w) -> noOps w.
Proof. intros c w H op a b HI E. apply (H op (c :: a) b HI). cbn. now rewrite E. Qed.
Lemma noOps_first : forall w m, noOps w -> isOp (firstn m w) = false.
Proof.
  intros w m H. destruct (isOp (firstn m w)) eqn:E; auto. apply isOp_in in E. exfalso.
  apply (H _ [] (skipn m w) E). cbn. now rewrite firstn_skipn.
Qed.
Lemma noOps_seek : forall w, noOps w -> seekOp w = None.
Proof.
  induction w as [|c w IH]; intros H; [reflexivity|]. cbn [seekOp]. rewrite seekAt_none by (intro; now apply noOps_first).
  apply IH. eapply noOps_tail; eauto.
Qed.
Lemma find_none_all : forall A (f : A -> bool) l, (forall x, f x = false) -> find f l = None.
Proof. induction l as [|a l IH]; intros H; cbn [find]; auto. rewrite H. auto. Qed.
Lemma callArgs_none : forall name a w, ~ In 40%N w -> callArgs name a w = None.
Proof.
  intros name a w H. unfold callArgs. destruct (hasPrefix w (name ++ [40%N])) eqn:E; [|reflexivity].
  apply hasPrefix_spec in E as [r ->]. exfalso. apply H. apply in_or_app. left. apply in_or_app. right. now left.
Qed.
Lemma funcKey_none : forall w, ~ In 40%N w -> funcKey w = None.
Proof. intros w H. unfold funcKey. apply find_none_all. intros [[n a] t]. cbn [fst snd]. now rewrite callArgs_none. Qed.
Lemma funcKey_quoted : forall w, hasPrefix w [34%N] = true \/ hasPrefix w [39%N] = true -> funcKey w = None.
Proof.
  intros w H. assert (exists r, w = 34%N :: r \/ w = 39%N :: r) as [r E].
  { destruct H as [H|H]; apply hasPrefix_spec in H as [r ->]; exists r; auto. }
  destruct E as [-> | ->]; reflexivity.
Qed.
Lemma digitsThen_sub : forall s d f, digitsThen s = d :: f -> exists p, s = p ++ d :: f /\ forallb isDigit p = true.
Proof.
  induction s as [|c s IH]; intros d f H; cbn [digitsThen] in H; [discriminate|]. destruct (isDigit c) eqn:E.
  - destruct (IH _ _ H) as (p & -> & Hp). exists (c :: p). cbn. now rewrite E, Hp.
  - injection H as -> ->. exists []. auto.
Qed.
Lemma digitsThen_all : forall s, digitsThen s = [] -> forallb isDigit s = true.
Proof. induction s as [|c s IH]; intros H; cbn [digitsThen forallb] in *; auto. destruct (isDigit c) eqn:E; [|discriminate]. cbn. auto. Qed.
Lemma isDigit_spec : forall c, isDigit c = true <-> digit c.
Proof. intros c. unfold isDigit, digit. rewrite andb_true_iff, !N.leb_le. reflexivity. Qed.
Definition numeric (c : N) : Prop := digit c \/ c = 45%N \/ c = 46%N.
Lemma digits_numeric : forall l, forallb isDigit l = true -> Forall numeric l.
Proof. intros l H. apply Forall_forall. intros c Hc. left. apply isDigit_spec. rewrite forallb_forall in H. auto. Qed.
Lemma isNum_numeric : forall w, isNum w = true -> Forall numeric w.
Proof.
  intros w H. unfold isNum in H.
  assert (forall u, match u with
    | [] => false
    | c :: r => match (if N.eqb c 48 then Some r else if isDigit c then Some (digitsThen r) else None) with
                | None => false | Some [] => true
                | Some (d :: f) => N.eqb d 46 && (match f with [] => false | _ => true end) && forallb isDigit f end
    end = true -> Forall numeric u) as X.
  { intros [|c r] HU; [discriminate|]. destruct (N.eqb c 48) eqn:E0.
    - apply N.eqb_eq in E0. subst. constructor; [left; unfold digit; lia|]. destruct r as [|d f]; [constructor|].
      apply andb_true_iff in HU as [HU HF]. apply andb_true_iff in HU as [HD _]. apply N.eqb_eq in HD. subst.
      constructor; [now right; right|now apply digits_numeric].
    - destruct (isDigit c) eqn:E1; [|discriminate]. constructor; [left; now apply isDigit_spec|].
      destruct (digitsThen r) as [|d f] eqn:E2; [apply digits_numeric; now apply digitsThen_all|].
      apply digitsThen_sub in E2 as (p & -> & Hp). apply andb_true_iff in HU as [HU HF]. apply andb_true_iff in HU as [HD _].
      apply N.eqb_eq in HD. subst. apply Forall_app. split; [now apply digits_numeric|]. constructor; [now right; right|now apply digits_numeric]. }
  destruct w as [|c r]; [discriminate|]. cbv zeta in H. destruct (N.eqb c 45) eqn:E.
  - apply N.eqb_eq in E. subst. constructor; [right; now left|]. apply X. exact H.
  - apply X. exact H.
Qed.
Lemma wordy_isNum : forall w, wordy w -> isNum w = false.
Proof.
  intros w (c & Hc & H1 & H2 & H3). destruct (isNum w) eqn:E; auto. apply isNum_numeric in E. rewrite Forall_forall in E.
  destruct (E c Hc) as [X|[X|X]]; contradiction.
Qed.
