(** The shown text of an expression can be read again. *)
From Coq Require Import String.
From Verif Require Import Base MTokenizer MLit MFastVal SJson SFormula SEvents MExpr MTransform MMatcher MTree SFilter SDoc SSat SSem MShow SShow PMatch.
From Coq Require Import List NArith ZArith Arith Lia Bool DecimalN.
Import ListNotations.
Open Scope nat_scope.

(** ** Texts *)
Lemma appendUint_inj : forall a b, appendUint (Z.of_nat a) = appendUint (Z.of_nat b) -> a = b.
Proof. intros a b H. unfold appendUint in H. apply uint_bytes_inj in H. apply Unsigned.to_uint_inj in H. lia. Qed.
Lemma uint_digits : forall u, Forall (fun c => 48 <= c <= 57)%N (uint_bytes u).
Proof. induction u; cbn [uint_bytes]; constructor; auto; lia. Qed.
Lemma num_digits : forall n, Forall (fun c => 48 <= c <= 57)%N (appendUint n).
Proof. intros. apply uint_digits. Qed.

(** Where words end. *)
Definition stops : list N := [10; 32; 40; 41; 44]%N.
Definition stop (r : list N) : Prop := match r with [] => True | c :: _ => In c stops end.
Definition ends (r : list N) : Prop := match r with [] => True | c :: _ => In c [10; 32; 41; 44]%N end.
Definition solidB (w : list N) : Prop := Forall (fun c => ~ In c stops) w.
Lemma ends_stop : forall r, ends r -> stop r.
Proof. intros [|c r]; cbn; tauto. Qed.
Lemma word_split : forall w w' r s, solidB w -> solidB w' -> stop r -> stop s -> w ++ r = w' ++ s -> w = w' /\ r = s.
Proof.
  induction w as [|c w IH]; intros [|d w'] r s H1 H2 H3 H4 H; cbn [app] in H; auto.
  - subst r. inversion H2; subst. contradiction.
  - subst s. inversion H1; subst. contradiction.
  - injection H as -> H. inversion H1; inversion H2; subst. destruct (IH w' r s) as [-> ->]; auto.
Qed.
Lemma plain_solid : forall w, plainWord w -> solidB w.
Proof. intros w [_ H]. unfold solidB. rewrite Forall_forall in *. intros c HI K. apply (H c HI). unfold stops in K. cbn in *. tauto. Qed.
Lemma digits_solid : forall n, solidB (appendUint n).
Proof.
  intros n. pose proof (num_digits n) as H. unfold solidB. rewrite Forall_forall in *. intros c HI K. specialize (H c HI). unfold stops in K. cbn [In] in K.
  repeat (destruct K as [<-|K]; [lia|]). destruct K.
Qed.
Lemma solid_app : forall a b, solidB a -> solidB b -> solidB (a ++ b).
Proof. intros. apply Forall_app. auto. Qed.
Lemma solid_lit : forall a, forallb (fun c => negb (existsb (N.eqb c) stops)) a = true -> solidB a.
Proof.
  intros a H. unfold solidB. rewrite Forall_forall. rewrite forallb_forall in H. intros c HI K. specialize (H c HI). apply negb_true_iff in H.
  assert (existsb (N.eqb c) stops = true) by (apply existsb_exists; exists c; split; [exact K|apply N.eqb_refl]). congruence.
Qed.

(** ** Fields *)
Lemma joinWith_solid : forall sep l, solidB sep -> Forall solidB l -> solidB (joinWith sep l).
Proof.
  intros sep [|a r] HS H; [constructor|]. inversion H as [|? ? HA HR]; subst. cbn [joinWith]. apply solid_app; [exact HA|]. clear H HA. induction r as [|b r IH]; [constructor|].
  inversion HR; subst. cbn [flat_map]. repeat apply solid_app; auto.
Qed.
Definition rootText (root : nat) : bytes := match root with O => s2b "$doc" | _ => s2b "$" ++ appendUint (Z.of_nat root) end.
Lemma rootText_solid : forall r, solidB (rootText r).
Proof. intros [|r]; [apply solid_lit; reflexivity|]. unfold rootText. apply solid_app; [apply solid_lit; reflexivity|apply digits_solid]. Qed.
Lemma field_solid : forall r p, Forall plainName p -> solidB (showField r p).
Proof.
  intros r p H. unfold showField. fold (rootText r). destruct p as [|a p]; [apply rootText_solid|]. apply solid_app; [apply rootText_solid|]. apply solid_app; [apply solid_lit; reflexivity|].
  apply joinWith_solid; [apply solid_lit; reflexivity|]. rewrite Forall_forall in *. intros w HI. apply plain_solid. apply (H w HI).
Qed.
Definition dotless (w : list N) : Prop := ~ In 46%N w.
Definition dotted (r : list N) : Prop := match r with [] => True | c :: _ => c = 46%N end.
Lemma dot_split : forall w w' r s, dotless w -> dotless w' -> dotted r -> dotted s -> w ++ r = w' ++ s -> w = w' /\ r = s.
Proof.
  induction w as [|c w IH]; intros [|d w'] r s H1 H2 H3 H4 H; cbn [app] in H; auto.
  - subst r. cbn in H3. subst d. exfalso. apply H2. now left.
  - subst s. cbn in H4. subst c. exfalso. apply H1. now left.
  - injection H as -> H. destruct (IH w' r s) as [-> ->]; auto; intro K; [apply H1|apply H2]; now right.
Qed.
Lemma dots_inj : forall p q, Forall dotless p -> Forall dotless q -> flat_map (fun b => s2b "." ++ b) p = flat_map (fun b => s2b "." ++ b) q -> p = q.
Proof.
  induction p as [|a p IH]; intros [|b q] H1 H2 H; try discriminate; auto. cbn [flat_map] in H. rewrite <- !app_assoc in H. cbn [s2b app] in H. change (s2b ".") with [46%N] in *. cbn [app] in H. injection H as H.
  inversion H1; inversion H2; subst. apply dot_split in H as [-> H]; auto; [f_equal; now apply IH| |]; [destruct p|destruct q]; cbn; auto.
Qed.
Lemma rootText_dotless : forall r, dotless (rootText r).
Proof.
  intros [|r] K; [cbn in K; intuition discriminate|]. unfold rootText in K. apply in_app_iff in K as [K|K]; [cbn in K; intuition discriminate|].
  pose proof (num_digits (Z.of_nat (S r))) as H. rewrite Forall_forall in H. specialize (H _ K). lia.
Qed.
Lemma rootText_inj : forall r s, rootText r = rootText s -> r = s.
Proof.
  assert (forall r, s2b "$doc" <> s2b "$" ++ appendUint (Z.of_nat r)) as HN.
  { intros r K. change (s2b "$doc") with (s2b "$" ++ s2b "doc") in K. apply app_inv_head in K. pose proof (num_digits (Z.of_nat r)) as H. rewrite <- K in H. inversion H; subst. cbn in *. lia. }
  intros [|r] [|s] H; auto; unfold rootText in H; [exfalso; eapply HN; exact H|exfalso; symmetry in H; eapply HN; exact H|]. apply app_inv_head in H. now apply appendUint_inj in H.
Qed.
Lemma showField_flat : forall r p, showField r p = rootText r ++ flat_map (fun b => s2b "." ++ b) p.
Proof. intros r [|a p]; unfold showField; fold (rootText r); [now rewrite app_nil_r|]. cbn [joinWith flat_map]. now rewrite <- app_assoc. Qed.
Lemma showField_inj : forall r p s q, Forall plainName p -> Forall plainName q -> showField r p = showField s q -> r = s /\ p = q.
Proof.
  intros r p s q H1 H2 H. rewrite !showField_flat in H. assert (forall l, Forall plainName l -> Forall dotless l) as HD by (intros l; apply Forall_impl; intros a [_ X]; exact X).
  apply dot_split in H as [A B]; auto using rootText_dotless; [split; [now apply rootText_inj|apply dots_inj; auto]| |]; [destruct p|destruct q]; cbn; auto.
Qed.
Lemma field_head : forall r p, exists t, showField r p = 36%N :: t.
Proof. intros r p. rewrite showField_flat. destruct r; eexists; reflexivity. Qed.

(** ** Operands *)
Section Show.
  Variable x : formats.
  Variable K : expr -> Prop.
  Hypothesis HK : legible (showE x) K.
  Let show := showE x.

  Lemma phrase_fun : forall n l, phrase K (XFunc n l) <-> plainWord n /\ Forall (phrase K) l.
  Proof. intros n l. cbn [phrase]. split; intros [A B]; (split; [exact A|]); revert B; clear; induction l as [|a l IH]; intro B; try constructor; try (inversion B; subst); intuition. Qed.
  Lemma phrase_cases : forall e, phrase K e -> (K e /\ constant e /\ plainWord (show e)) \/ (exists r p, e = XField r p /\ Forall plainName p) \/
    (exists n l, e = XFunc n l /\ plainWord n /\ Forall (phrase K) l).
  Proof.
    intros e H. destruct e; try contradiction; try (left; split; [exact H|]; apply (proj1 HK); exact H).
    - right. left. eauto.
    - right. right. apply phrase_fun in H as [A B]. eauto 6.
  Qed.
  Definition openers : list N := [10; 32; 33; 40; 41; 44; 60; 61; 62]%N.
  Lemma plain_head : forall w, plainWord w -> exists c t, w = c :: t /\ ~ In c openers /\ c <> 36%N.
  Proof. intros [|c t] [H1 H2]; [contradiction|]. inversion H2 as [|? ? HC]; subst. exists c, t. split; [reflexivity|]. unfold openers. cbn in *. split; [tauto|]. intros ->. tauto. Qed.
  Lemma phrase_head : forall e, phrase K e -> exists c t, show e = c :: t /\ ~ In c openers.
  Proof.
    intros e H. destruct (phrase_cases e H) as [[_ [_ A]]|[[r [p [-> A]]]|[n [l [-> [A _]]]]]].
    - destruct (plain_head _ A) as [c [t [E [B _]]]]. eauto.
    - unfold show. cbn [showE]. destruct (field_head r p) as [t ->]. exists 36%N, t. split; [reflexivity|]. cbn. intuition discriminate.
    - eexists _, _. split; [reflexivity|]. cbn. intuition discriminate.
  Qed.
  Lemma funcs_solid : forall n, plainWord n -> solidB (s2b "func:" ++ n).
  Proof. intros. apply solid_app; [apply solid_lit; reflexivity|now apply plain_solid]. Qed.
  Lemma phrase_inj : forall e, phrase K e -> forall e' r s, phrase K e' -> ends r -> ends s -> show e ++ r = show e' ++ s -> e = e' /\ r = s.
  Proof.
    assert (forall e e' r s, K e -> plainWord (show e) -> phrase K e' -> ends r -> ends s -> show e ++ r = show e' ++ s -> e = e' /\ r = s) as HConst.
    { intros e e' r s HKe A H' Hr Hs HE. destruct (phrase_cases e' H') as [[K' [_ B]]|[[q [p [-> B]]]|[n [l [-> [B _]]]]]].
      - apply word_split in HE as [E1 E2]; auto using plain_solid, ends_stop. split; [apply (proj2 HK); auto|exact E2].
      - exfalso. unfold show in HE at 2. cbn [showE] in HE. destruct (field_head q p) as [t E]. rewrite E in HE. destruct (plain_head _ A) as [c [u [E2 [_ N]]]]. rewrite E2 in HE. cbn [app] in HE. injection HE as X _. contradiction.
      - exfalso. unfold show in HE at 2. cbn [showE] in HE. rewrite !app_assoc, <- (app_assoc (s2b "func:")) in HE. rewrite <- !app_assoc in HE. rewrite (app_assoc (s2b "func:")) in HE.
        apply word_split in HE as [_ E2]; auto using plain_solid, ends_stop, funcs_solid; [|cbn; tauto]. subst r. cbn in Hr. intuition discriminate. }
    intros e. induction e using expr_ind'; intros HP e' r1 s1 HP' Hr Hs HE; try contradiction;
      try (apply HConst; auto; apply (proj1 HK); exact HP).
    - destruct (phrase_cases e' HP') as [[K' [C' B]]|[[q [p' [-> B]]]|[n [l [-> [B _]]]]]].
      + symmetry in HE. destruct (HConst e' (XField r p) s1 r1 K' B HP Hs Hr HE) as [E1 _]. subst e'. destruct C'.
      + unfold show in HE. cbn [showE] in HE. apply word_split in HE as [E1 E2]; auto using field_solid, ends_stop. apply showField_inj in E1 as [-> ->]; auto.
      + exfalso. unfold show in HE. cbn [showE] in HE. destruct (field_head r p) as [t E]. rewrite E in HE. discriminate.
    - apply phrase_fun in HP as [N1 F1]. destruct (phrase_cases e' HP') as [[K' [C' B]]|[[q [p' [-> B]]]|[n' [l' [-> [N2 F2]]]]]].
      + assert (phrase K (XFunc n l)) as HPF by (apply phrase_fun; auto). symmetry in HE. destruct (HConst e' (XFunc n l) s1 r1 K' B HPF Hs Hr HE) as [E1 _]. subst e'. destruct C'.
      + exfalso. unfold show in HE. cbn [showE] in HE. destruct (field_head q p') as [t E]. rewrite E in HE. discriminate.
      + unfold show in HE. cbn [showE] in HE. rewrite <- !app_assoc in HE. rewrite !(app_assoc (s2b "func:")) in HE.
        apply word_split in HE as [E1 E2]; auto using funcs_solid; try (cbn; tauto). apply app_inv_head in E1 as <-. apply app_inv_head in E2.
        assert (forall m m' r s, Forall (fun e => phrase K e -> forall e' r s, phrase K e' -> ends r -> ends s -> show e ++ r = show e' ++ s -> e = e' /\ r = s) m ->
          Forall (phrase K) m -> Forall (phrase K) m' -> flat_map (fun b => s2b "," ++ b) (map show m) ++ s2b ")" ++ r = flat_map (fun b => s2b "," ++ b) (map show m') ++ s2b ")" ++ s -> m = m' /\ r = s) as HT.
        { induction m as [|a m IHm]; intros [|b m'] u v HI Fm Fm' X; cbn [map flat_map app] in X; try discriminate X.
          - injection X as X. auto.
          - rewrite <- !app_assoc in X. change (s2b ",") with [44%N] in X. cbn [app] in X. injection X as X. inversion HI as [|? ? HIa HIm]; inversion Fm as [|? ? Fa Fr]; inversion Fm' as [|? ? Fb Fs]; subst.
            apply (HIa Fa) in X as [-> X]; auto.
            + apply IHm in X as [-> ->]; auto.
            + destruct m; cbn; tauto.
            + destruct m'; cbn; tauto. }
        destruct l as [|a l], l' as [|b l'].
        * cbn [map joinWith app] in E2. apply app_inv_head in E2 as ->. auto.
        * exfalso. inversion F2; subst. destruct (phrase_head b) as [c [t [E B]]]; auto. cbn [map joinWith app] in E2. fold show in E2. rewrite E in E2. cbn [app] in E2. injection E2 as X _. subst c. apply B. cbn. tauto.
        * exfalso. inversion F1; subst. destruct (phrase_head a) as [c [t [E B]]]; auto. cbn [map joinWith app] in E2. fold show in E2. rewrite E in E2. cbn [app] in E2. injection E2 as X _. subst c. apply B. cbn. tauto.
        * cbn [map joinWith] in E2. rewrite <- !app_assoc in E2. inversion H as [|? ? Ha Hl]; inversion F1 as [|? ? Fa Fl]; inversion F2 as [|? ? Fb Fl']; subst. fold show in E2.
          apply (Ha Fa) in E2 as [-> E2]; auto; [apply HT in E2 as [-> ->]; auto| |]; [destruct l|destruct l']; cbn; tauto.
  Qed.
  Lemma phrase_line : forall e, phrase K e -> Forall (fun c => c <> 10%N /\ c <> 32%N) (show e).
  Proof.
    assert (forall w, solidB w -> Forall (fun c => c <> 10%N /\ c <> 32%N) w) as HS by (intros w; apply Forall_impl; intros c Hc; split; intros ->; apply Hc; cbn; tauto).
    intros e. induction e using expr_ind'; intros HP; try contradiction;
      try (apply HS, plain_solid; apply (proj1 HK); exact HP); [apply HS, field_solid; exact HP|].
    apply phrase_fun in HP as [N1 F1]. unfold show. cbn [showE]. rewrite (app_assoc (s2b "func:")). apply Forall_app. split; [apply HS, funcs_solid; exact N1|].
    apply Forall_app. split; [repeat constructor; discriminate|]. apply Forall_app. split; [|repeat constructor; discriminate].
    destruct l as [|a l]; [constructor|]. inversion H as [|? ? Ha Hl]; inversion F1 as [|? ? Fa Fl]; subst. cbn [map joinWith]. apply Forall_app. split; [auto|]. clear H F1 Ha Fa. revert Hl Fl.
    induction l as [|b l IHl]; intros X Y; [constructor|]. inversion X; inversion Y; subst. cbn [map flat_map]. apply Forall_app. split; [apply Forall_app; split; [repeat constructor; discriminate|auto]|apply IHl; auto].
  Qed.

  (** ** Lines *)
  Definition ind (l : bytes) : bytes := s2b "  " ++ l.
  Definition groupLines (word : bytes) (l : list (list bytes)) : list bytes :=
    match l with
    | [] => [s2b "%%ERROR%%"]
    | [a] => a
    | a :: r => map ind a ++ flat_map (fun b => word :: map ind b) r
    end.
  Fixpoint linesE (e : expr) : list bytes :=
    match e with
    | XNot a => match linesE a with h :: t => (s2b "NOT " ++ h) :: t | [] => [] end
    | XAnd l => groupLines (s2b "AND") (map linesE l)
    | XOr l => groupLines (s2b "OR") (map linesE l)
    | XLoop m v i s => (loopWord m ++ s2b " $" ++ appendUint (Z.of_nat v) ++ s2b " in " ++ showE x i) :: map ind (linesE s) ++ [s2b "end"]
    | _ => [showE x e]
    end.
  Definition line (l : bytes) : Prop := ~ In 10%N l.
  Notation nl := [10%N].
  Lemma join_app : forall a b, a <> [] -> b <> [] -> joinWith nl (a ++ b) = joinWith nl a ++ nl ++ joinWith nl b.
  Proof. intros [|h a] [|k b] A B; try contradiction. cbn [joinWith app flat_map]. rewrite flat_map_app. cbn [flat_map]. rewrite <- app_assoc. reflexivity. Qed.
  Lemma flat_same : forall l, line l -> flat_map (fun c => if N.eqb c 10 then [10; 32; 32]%N else [c]) l = l.
  Proof.
    induction l as [|c l IH]; intro H; [reflexivity|]. cbn [flat_map]. destruct (N.eqb_spec c 10) as [->|_]; [exfalso; apply H; now left|]. cbn [app]. rewrite IH; auto.
    intro K'. apply H. now right.
  Qed.
  Lemma reindent_lines : forall l, l <> [] -> Forall line l -> reindent (joinWith nl l) = joinWith nl (map ind l).
  Proof.
    intros [|a r] H HL; [contradiction|]. clear H. inversion HL as [|? ? HA HR]; subst. unfold reindent. cbn [joinWith map]. rewrite flat_map_app, flat_same by exact HA. unfold ind at 1. rewrite <- app_assoc. do 2 f_equal.
    clear HL HA. induction r as [|b r IH]; [reflexivity|]. inversion HR; subst. cbn [flat_map map]. rewrite flat_map_app, IH by assumption. f_equal.
    change (nl ++ b) with (10%N :: b). cbn [flat_map N.eqb]. rewrite flat_same by assumption. reflexivity.
  Qed.
  Lemma sentence_list : forall l, (fix go l := match l with [] => True | a :: r => sentence K a /\ go r end) l <-> Forall (sentence K) l.
  Proof. induction l as [|a l IH]; split; intro H; auto; [constructor; tauto|inversion H; tauto]. Qed.
  Lemma solid_line : forall w, Forall (fun c => c <> 10%N /\ c <> 32%N) w -> line w.
  Proof. intros w H I. rewrite Forall_forall in H. destruct (H _ I) as [X _]. now apply X. Qed.
  Lemma line_app : forall a b, line a -> line b -> line (a ++ b).
  Proof. intros a b A B I. apply in_app_iff in I as [I|I]; auto. Qed.
  Lemma line_lit : forall a, existsb (N.eqb 10) a = false -> line a.
  Proof. intros a H I. assert (existsb (N.eqb 10) a = true) by (apply existsb_exists; exists 10%N; auto). congruence. Qed.
  Lemma num_line : forall n, line (appendUint n).
  Proof. intros n I. pose proof (num_digits n) as H. rewrite Forall_forall in H. specialize (H _ I). lia. Qed.
  Lemma ind_line : forall l, Forall line l -> Forall line (map ind l).
  Proof. intros l H. apply Forall_map. eapply Forall_impl; [|exact H]. intros a A. apply line_app; [apply line_lit; reflexivity|exact A]. Qed.
  Lemma group_lines : forall word l, line word -> l <> [] ->
    Forall (fun e => show e = joinWith nl (linesE e) /\ linesE e <> [] /\ Forall line (linesE e)) l ->
    showGroup word (map show l) = joinWith nl (groupLines word (map linesE l)) /\ groupLines word (map linesE l) <> [] /\ Forall line (groupLines word (map linesE l)).
  Proof.
    intros word l HW HN H. destruct l as [|a [|b r]]; [contradiction|inversion H; subst; cbn [map showGroup groupLines]; assumption|].
    assert (forall r, Forall (fun e => show e = joinWith nl (linesE e) /\ linesE e <> [] /\ Forall line (linesE e)) r -> forall P, P <> [] ->
      joinWith nl P ++ flat_map (fun b => nl ++ word ++ nl ++ reindent b) (map show r) = joinWith nl (P ++ flat_map (fun b => word :: map ind b) (map linesE r))) as HF.
    { clear H HN. clear r. induction r as [|c r IH]; intros H P HP; cbn [map flat_map]; [now rewrite !app_nil_r|]. inversion H as [|? ? [E1 [E2 E3]] H2]; subst.
      rewrite E1, reindent_lines by assumption. replace (P ++ (word :: map ind (linesE c)) ++ flat_map (fun b0 : list bytes => word :: map ind b0) (map linesE r))
        with ((P ++ word :: map ind (linesE c)) ++ flat_map (fun b0 : list bytes => word :: map ind b0) (map linesE r)) by (rewrite <- app_assoc; reflexivity).
      rewrite <- IH; [|exact H2|destruct P; discriminate]. rewrite join_app by (auto; discriminate). change (word :: map ind (linesE c)) with ([word] ++ map ind (linesE c)).
      rewrite join_app; [|discriminate|destruct (linesE c); [contradiction|discriminate]]. cbn [joinWith flat_map]. rewrite app_nil_r, <- !app_assoc. reflexivity. }
    inversion H as [|? ? [E1 [E2 E3]] H2]; subst. change (map show (a :: b :: r)) with (show a :: map show (b :: r)). change (map linesE (a :: b :: r)) with (linesE a :: map linesE (b :: r)).
    assert (map ind (linesE a) <> []) as NE by (destruct (linesE a); [contradiction|discriminate]).
    split; [|split].
    - change (reindent (show a) ++ flat_map (fun b => nl ++ word ++ nl ++ reindent b) (map show (b :: r)) = joinWith nl (map ind (linesE a) ++ flat_map (fun b => word :: map ind b) (map linesE (b :: r)))).
      rewrite E1, reindent_lines by assumption. apply HF; assumption.
    - cbn [groupLines map]. destruct (map ind (linesE a)); [contradiction|discriminate].
    - change (Forall line (map ind (linesE a) ++ flat_map (fun b => word :: map ind b) (map linesE (b :: r)))). apply Forall_app. split; [now apply ind_line|].
      revert H2. generalize (b :: r). clear - HW. induction l as [|c l IH]; intro H; cbn [map flat_map]; [constructor|]. inversion H as [|? ? [_ [_ E]] H2]; subst.
      apply Forall_app. split; [constructor; [exact HW|now apply ind_line]|now apply IH].
  Qed.
  Lemma show_lines : forall e, sentence K e -> show e = joinWith nl (linesE e) /\ linesE e <> [] /\ Forall line (linesE e).
  Proof.
    assert (forall e, linesE e = [show e] -> line (show e) -> show e = joinWith nl (linesE e) /\ linesE e <> [] /\ Forall line (linesE e)) as HOne.
    { intros e E H. rewrite E. cbn [joinWith flat_map]. rewrite app_nil_r. split; [reflexivity|]. split; [discriminate|]. auto. }
    intros e. induction e using expr_ind'; intros HS; try contradiction; try (apply HOne; [reflexivity|apply line_lit; reflexivity]).
    - destruct (IHe HS) as [A [B C]]. unfold show in *. cbn [showE linesE]. destruct (linesE e) as [|h t]; [contradiction|]. inversion C; subst. rewrite A. cbn [joinWith]. rewrite <- app_assoc.
      split; [reflexivity|]. split; [discriminate|]. constructor; [apply line_app; [apply line_lit; reflexivity|assumption]|assumption].
    - destruct HS as [N HS]. apply sentence_list in HS. apply (group_lines (s2b "AND") l); auto; [apply line_lit; reflexivity|].
      rewrite Forall_forall in *. intros a HI. apply H; auto.
    - destruct HS as [N HS]. apply sentence_list in HS. apply (group_lines (s2b "OR") l); auto; [apply line_lit; reflexivity|].
      rewrite Forall_forall in *. intros a HI. apply H; auto.
    - destruct HS as [[r [p [-> HF]]] HS]. destruct (IHe2 HS) as [A [B C]]. unfold show in *. cbn [linesE]. cbn [showE].
      assert (line (loopWord m ++ s2b " $" ++ appendUint (Z.of_nat v) ++ s2b " in " ++ showField r p)) as HL.
      { repeat apply line_app; try (apply line_lit; reflexivity); [apply line_lit; destruct m; reflexivity|apply num_line|].
        apply solid_line. eapply Forall_impl; [|apply field_solid; exact HF]. intros c Hc. split; intros ->; apply Hc; cbn; tauto. }
      split; [|split; [discriminate|]].
      + cbn [joinWith]. rewrite A, reindent_lines by assumption. rewrite <- !app_assoc. do 5 f_equal. assert (map ind (linesE e2) <> []) as NE by (destruct (linesE e2); [contradiction|discriminate]).
        destruct (map ind (linesE e2)) as [|h t]; [contradiction|]. cbn [joinWith app flat_map]. rewrite flat_map_app. cbn [flat_map]. rewrite app_nil_r, <- !app_assoc. reflexivity.
      + constructor; [exact HL|]. apply Forall_app. split; [now apply ind_line|]. repeat constructor. apply line_lit. reflexivity.
    - apply HOne; [reflexivity|]. unfold show. cbn [showE]. apply line_app; [|apply line_lit; reflexivity]. destruct HS. apply solid_line. now apply phrase_line.
    - apply HOne; [reflexivity|]. unfold show. cbn [showE]. apply line_app; [|apply line_lit; reflexivity]. destruct HS. apply solid_line. now apply phrase_line.
    - apply HOne; [reflexivity|]. unfold show. cbn [showE]. destruct HS as [A B]. repeat apply line_app; try (apply line_lit; reflexivity); [apply solid_line; now apply phrase_line|apply line_lit; destruct k; reflexivity|apply solid_line; now apply phrase_line].
  Qed.
  Lemma join_inj : forall a b, a <> [] -> b <> [] -> Forall line a -> Forall line b -> joinWith nl a = joinWith nl b -> a = b.
  Proof.
    assert (forall u v r s, line u -> line v -> (match r with [] => True | c :: _ => c = 10%N end) -> (match s with [] => True | c :: _ => c = 10%N end) -> u ++ r = v ++ s -> u = v /\ r = s) as HC.
    { induction u as [|c u IH]; intros [|d v] r s H1 H2 H3 H4 H; cbn [app] in H; auto.
      - subst r. subst d. exfalso. apply H2. now left.
      - subst s. subst c. exfalso. apply H1. now left.
      - injection H as -> H. destruct (IH v r s) as [-> ->]; auto; intro Q; [apply H1|apply H2]; now right. }
    assert (forall r s, Forall line r -> Forall line s -> flat_map (fun b => nl ++ b) r = flat_map (fun b => nl ++ b) s -> r = s) as HR.
    { induction r as [|u r IH]; intros [|v s] H1 H2 H; try discriminate; auto. cbn [flat_map app] in H. injection H as H. inversion H1; inversion H2; subst.
      apply HC in H as [-> H]; auto; [f_equal; auto| |]; [destruct r|destruct s]; cbn; auto. }
    intros [|u r] [|v s] A B H1 H2 H; try contradiction. cbn [joinWith] in H. inversion H1; inversion H2; subst.
    apply HC in H as [-> H]; auto; [f_equal; auto| |]; [destruct r|destruct s]; cbn; auto.
  Qed.

  (** ** The first line tells what it is *)
  Inductive leadK := KTrue | KFalse | KGroup | KNot (h : bytes) | KLoop (m : lmode) (r : bytes) | KEx (w : bytes) | KMiss (w : bytes) | KCmp (k : cmpk) (w r : bytes) | KBad.
  Fixpoint cutSp (l : bytes) : option (bytes * bytes) :=
    match l with [] => None | c :: r => if N.eqb c 32 then Some ([], r) else match cutSp r with Some (a, b) => Some (c :: a, b) | None => None end end.
  Definition opOf (w : bytes) : option cmpk := find (fun k => bytes_eqb (cmpWord k) w) [CEq; CNe; CLt; CLe; CGt; CGe; CLike].
  Definition opChar (c : N) : bool := N.eqb c 33 || N.eqb c 60 || N.eqb c 61 || N.eqb c 62.
  Definition lead (h : bytes) : leadK :=
    if match h with c :: _ => N.eqb c 32 | [] => false end then KGroup
    else match cutSp h with
    | None => if bytes_eqb h (s2b "True") then KTrue else if bytes_eqb h (s2b "False") then KFalse else KBad
    | Some (w, rest) =>
        let c := hd 0%N rest in
        if bytes_eqb w (s2b "NOT") && negb (opChar c) then KNot rest
        else if bytes_eqb w (s2b "any") && N.eqb c 36 then KLoop LAny rest
        else if bytes_eqb w (s2b "any") && N.eqb c 97 then KLoop LAnyEvery (skipn 10 rest)
        else if bytes_eqb w (s2b "every") && N.eqb c 36 then KLoop LEvery rest
        else if bytes_eqb rest (s2b "EXISTS") then KEx w
        else if bytes_eqb rest (s2b "IS MISSING") then KMiss w
        else match cutSp rest with Some (op, r) => match opOf op with Some k => KCmp k w r | None => KBad end | None => KBad end
    end.
  Lemma cutSp_at : forall w r, Forall (fun c => c <> 10%N /\ c <> 32%N) w -> cutSp (w ++ 32%N :: r) = Some (w, r).
  Proof.
    induction w as [|c w IH]; intros r H; [reflexivity|]. inversion H as [|? ? [_ HC] H2]; subst. cbn [app cutSp]. destruct (N.eqb_spec c 32); [contradiction|]. now rewrite IH.
  Qed.
  Definition loopRest (v : nat) (i : expr) : bytes := s2b "$" ++ appendUint (Z.of_nat v) ++ s2b " in " ++ show i.
  Definition leadOf (e : expr) : leadK :=
    match e with
    | XTrue => KTrue | XFalse => KFalse
    | XNot a => KNot (hd [] (linesE a))
    | XAnd _ | XOr _ => KGroup
    | XLoop m v i _ => KLoop m (loopRest v i)
    | XExists a => KEx (show a) | XNotExists a => KMiss (show a)
    | XCmp k l r => KCmp k (show l) (show r)
    | _ => KBad
    end.
  (** Groups have two members at least. *)
  Fixpoint proper (e : expr) : Prop :=
    match e with
    | XNot a => proper a
    | XAnd l | XOr l => 2 <= length l /\ (fix go l := match l with [] => True | a :: r => proper a /\ go r end) l
    | XLoop _ _ _ s => proper s
    | _ => True
    end.
  Lemma proper_list : forall l, (fix go l := match l with [] => True | a :: r => proper a /\ go r end) l <-> Forall proper l.
  Proof. induction l as [|a l IH]; split; intro H; auto; [constructor; tauto|inversion H; tauto]. Qed.
  Lemma group_head : forall word l, 2 <= length l -> Forall (fun e => linesE e <> []) l -> exists h t, groupLines word (map linesE l) = (32%N :: h) :: t.
  Proof. intros word [|a [|b l]] HL H; cbn [length] in HL; try lia. inversion H; subst. cbn [map groupLines]. destruct (linesE a); [contradiction|]. eexists _, _. reflexivity. Qed.
  Lemma lines_some : forall e, sentence K e -> linesE e <> [].
  Proof. intros e H. apply (show_lines e H). Qed.
  Lemma lines_all : forall l, Forall (sentence K) l -> Forall (fun e => linesE e <> []) l.
  Proof. intros l. apply Forall_impl. apply lines_some. Qed.
  (** No first line starts with a sign of a comparison. *)
  Lemma first_char : forall e, sentence K e -> proper e -> exists c h t, linesE e = (c :: h) :: t /\ opChar c = false.
  Proof.
    assert (forall e, phrase K e -> forall r, exists c h t, [show e ++ r] = (c :: h) :: t /\ opChar c = false) as HP.
    { intros e H r. destruct (phrase_head e H) as [c [t [-> HC]]]. exists c, (t ++ r), []. split; [reflexivity|]. unfold opChar.
      repeat match goal with |- context [N.eqb c ?n] => destruct (N.eqb_spec c n) as [->|]; [exfalso; apply HC; cbn; tauto|] end. reflexivity. }
    intros e HS HR. destruct e; try contradiction.
    - eexists _, _, _. split; reflexivity.
    - eexists _, _, _. split; reflexivity.
    - cbn [linesE]. pose proof (lines_some e HS). destruct (linesE e) as [|h t]; [contradiction|]. eexists _, _, _. split; reflexivity.
    - destruct HS as [_ HS]. apply sentence_list in HS. destruct HR as [HL _]. destruct (group_head (s2b "AND") l HL (lines_all l HS)) as [h [t E]]. exists 32%N, h, t. split; [exact E|reflexivity].
    - destruct HS as [_ HS]. apply sentence_list in HS. destruct HR as [HL _]. destruct (group_head (s2b "OR") l HL (lines_all l HS)) as [h [t E]]. exists 32%N, h, t. split; [exact E|reflexivity].
    - destruct m; eexists _, _, _; split; reflexivity.
    - apply HP. apply HS.
    - apply HP. apply HS.
    - apply HP. apply HS.
  Qed.
  Lemma eqb_lit : forall a b : bytes, a <> b -> bytes_eqb a b = false.
  Proof. intros a b H. destruct (bytes_eqb a b) eqn:E; [apply bytes_eqb_eq in E; contradiction|reflexivity]. Qed.
  Lemma nonconst_head : forall e, phrase K e -> ~ constant e -> exists c t, show e = c :: t /\ (c = 36%N \/ exists u, show e = s2b "func:" ++ u).
  Proof.
    intros e H N. destruct (phrase_cases e H) as [[_ [C _]]|[[r [p [-> A]]]|[n [l [-> [A _]]]]]]; [contradiction| |].
    - unfold show. cbn [showE]. destruct (field_head r p) as [t ->]. eauto.
    - unfold show. cbn [showE]. eexists _, _. split; [reflexivity|]. right. eexists. reflexivity.
  Qed.
  Lemma not_head : forall (c : N) (t : bytes), ~ In c openers -> N.eqb c 32 = false.
  Proof. intros c _ H. apply N.eqb_neq. intros ->. apply H. cbn. tauto. Qed.
  Lemma lead_phrase : forall e rest, phrase K e -> lead (show e ++ 32%N :: rest) =
    (let w := show e in let c := hd 0%N rest in
        if bytes_eqb w (s2b "NOT") && negb (opChar c) then KNot rest
        else if bytes_eqb w (s2b "any") && N.eqb c 36 then KLoop LAny rest
        else if bytes_eqb w (s2b "any") && N.eqb c 97 then KLoop LAnyEvery (skipn 10 rest)
        else if bytes_eqb w (s2b "every") && N.eqb c 36 then KLoop LEvery rest
        else if bytes_eqb rest (s2b "EXISTS") then KEx w
        else if bytes_eqb rest (s2b "IS MISSING") then KMiss w
        else match cutSp rest with Some (op, r) => match opOf op with Some k => KCmp k w r | None => KBad end | None => KBad end).
  Proof.
    intros e rest H. unfold lead. pose proof (phrase_line e H) as HL. destruct (phrase_head e H) as [c [t [E HC]]].
    rewrite cutSp_at by exact HL. rewrite E at 1. cbn [app]. rewrite (not_head c t HC). reflexivity.
  Qed.
  Lemma lead_line : forall e, sentence K e -> proper e -> lead (hd [] (linesE e)) = leadOf e.
  Proof.
    intros e HS HR. destruct e; try contradiction.
    - reflexivity.
    - reflexivity.
    - destruct (first_char e HS HR) as [c [h [t [E HC]]]]. cbn [linesE leadOf]. rewrite E. cbn [hd]. unfold lead.
      change ((s2b "NOT " ++ c :: h)) with (s2b "NOT" ++ 32%N :: c :: h). rewrite cutSp_at by (repeat constructor; discriminate). cbn [hd]. rewrite HC. reflexivity.
    - destruct HS as [_ HS]. apply sentence_list in HS. destruct HR as [HL _]. destruct (group_head (s2b "AND") l HL (lines_all l HS)) as [h [t E]]. cbn [linesE]. rewrite E. reflexivity.
    - destruct HS as [_ HS]. apply sentence_list in HS. destruct HR as [HL _]. destruct (group_head (s2b "OR") l HL (lines_all l HS)) as [h [t E]]. cbn [linesE]. rewrite E. reflexivity.
    - cbn [linesE hd leadOf]. unfold loopRest. fold show. destruct m; reflexivity.
    - destruct HS as [HP HN]. cbn [linesE hd leadOf]. unfold show at 1. cbn [showE]. change (showE x e ++ s2b " EXISTS") with (show e ++ 32%N :: s2b "EXISTS"). rewrite lead_phrase by exact HP.
      destruct (nonconst_head e HP HN) as [c [t [E D]]]. cbv zeta.
      rewrite (eqb_lit (show e) (s2b "NOT")), (eqb_lit (show e) (s2b "any")), (eqb_lit (show e) (s2b "every")) by (destruct D as [->|[u D]]; [rewrite E; discriminate|rewrite D; discriminate]). reflexivity.
    - destruct HS as [HP HN]. cbn [linesE hd leadOf]. unfold show at 1. cbn [showE]. change (showE x e ++ s2b " IS MISSING") with (show e ++ 32%N :: s2b "IS MISSING"). rewrite lead_phrase by exact HP.
      destruct (nonconst_head e HP HN) as [c [t [E D]]]. cbv zeta.
      rewrite (eqb_lit (show e) (s2b "NOT")), (eqb_lit (show e) (s2b "any")), (eqb_lit (show e) (s2b "every")) by (destruct D as [->|[u D]]; [rewrite E; discriminate|rewrite D; discriminate]). reflexivity.
    - destruct HS as [H1 H2]. cbn [linesE hd leadOf]. unfold show at 1. cbn [showE].
      change (showE x e1 ++ s2b " " ++ cmpWord k ++ s2b " " ++ showE x e2) with (show e1 ++ 32%N :: cmpWord k ++ 32%N :: show e2). rewrite lead_phrase by exact H1. cbv zeta.
      rewrite cutSp_at by (destruct k; repeat constructor; discriminate).
      assert (forall w, opChar (hd 0%N (cmpWord k ++ w)) = true) as EO by (destruct k; reflexivity). rewrite EO.
      assert (forall w, N.eqb (hd 0%N (cmpWord k ++ w)) 36 = false /\ N.eqb (hd 0%N (cmpWord k ++ w)) 97 = false) as EC by (intro w; destruct k; split; reflexivity).
      destruct (EC (32%N :: show e2)) as [-> ->]. rewrite !andb_false_r. cbn [negb]. rewrite !eqb_lit by (destruct k; discriminate).
      assert (opOf (cmpWord k) = Some k) as -> by (destruct k; reflexivity). reflexivity.
  Qed.

  (** ** Reading again *)
  Definition flush (l : list bytes) : Prop := match l with [] => True | h :: _ => hd 0%N h <> 32%N end.
  Lemma block_split : forall a b r s, flush r -> flush s -> map ind a ++ r = map ind b ++ s -> a = b /\ r = s.
  Proof.
    induction a as [|u a IH]; intros [|v b] r s H1 H2 H; cbn [map app] in H; auto.
    - subst r. cbn in H1. contradiction.
    - subst s. cbn in H2. contradiction.
    - injection H as -> H. destruct (IH b r s) as [-> ->]; auto.
  Qed.
  Lemma blocks_split : forall word word' a b r s, (word = s2b "AND" \/ word = s2b "OR") -> (word' = s2b "AND" \/ word' = s2b "OR") ->
    r <> [] -> s <> [] ->
    map ind a ++ flat_map (fun b => word :: map ind b) r = map ind b ++ flat_map (fun b => word' :: map ind b) s -> word = word' /\ a = b /\ r = s.
  Proof.
    intros word word' a b r s HW HW'.
    assert (forall r, flush (flat_map (fun b => word :: map ind b) r)) as F1 by (intros [|u r']; cbn; auto; destruct HW as [-> | ->]; discriminate).
    assert (forall r, flush (flat_map (fun b => word' :: map ind b) r)) as F2 by (intros [|u r']; cbn; auto; destruct HW' as [-> | ->]; discriminate).
    assert (forall r s, flat_map (fun b => word :: map ind b) r = flat_map (fun b => word' :: map ind b) s -> r = s) as HR.
    { clear r s. induction r as [|u r0 IH]; intros [|v s0] H; try discriminate; auto. cbn [flat_map app] in H. injection H as _ H. apply block_split in H as [-> H]; auto. f_equal. auto. }
    intros NR NS H. apply block_split in H as [-> H]; auto. split; [|split; [reflexivity|auto]]. destruct r, s; try contradiction. cbn [flat_map app] in H. now injection H.
  Qed.
  Lemma group_inj : forall word word' l l', (word = s2b "AND" \/ word = s2b "OR") -> (word' = s2b "AND" \/ word' = s2b "OR") -> 2 <= length l -> 2 <= length l' ->
    groupLines word (map linesE l) = groupLines word' (map linesE l') -> word = word' /\ map linesE l = map linesE l'.
  Proof.
    intros word word' [|a [|b l]] [|a' [|b' l']] H1 H2 L1 L2 H; cbn [length] in *; try lia. cbn [map groupLines] in *.
    destruct (blocks_split word word' (linesE a) (linesE a') (linesE b :: map linesE l) (linesE b' :: map linesE l') H1 H2) as [A [B C]]; try discriminate; [exact H|].
    split; [exact A|]. rewrite B, C. reflexivity.
  Qed.
  Lemma lines_inj : forall e, sentence K e -> proper e -> forall e', sentence K e' -> proper e' -> linesE e = linesE e' -> e = e'.
  Proof.
    assert (forall l, Forall (fun e => sentence K e -> proper e -> forall e', sentence K e' -> proper e' -> linesE e = linesE e' -> e = e') l ->
      forall l', Forall (sentence K) l -> Forall proper l -> Forall (sentence K) l' -> Forall proper l' -> map linesE l = map linesE l' -> l = l') as HL.
    { induction l as [|a l IH]; intros H [|b l'] A B C D E; try discriminate; auto. cbn [map] in E. injection E as E1 E2. inversion H; inversion A; inversion B; inversion C; inversion D; subst. f_equal; auto. }
    intros e. induction e using expr_ind'; intros HS HR e' HS' HR' HE; try contradiction;
      (pose proof (lead_line _ HS' HR') as HD; rewrite <- HE, lead_line in HD by assumption).
    - destruct e'; try contradiction; try discriminate HD; reflexivity.
    - destruct e'; try contradiction; try discriminate HD; reflexivity.
    - destruct e'; try contradiction; try discriminate HD. f_equal. apply IHe; auto. cbn [linesE leadOf] in *.
      pose proof (lines_some e HS). pose proof (lines_some e' HS'). destruct (linesE e); [contradiction|]. destruct (linesE e'); [contradiction|]. injection HE as E1 E2. cbn [hd] in HD. congruence.
    - destruct e' as [| | | | | | |l'|l'| | | | | |]; try contradiction; try discriminate HD; destruct HS as [_ HS], HS' as [_ HS'], HR as [L1 HR], HR' as [L2 HR']; apply sentence_list in HS, HS'; apply proper_list in HR, HR'; cbn [linesE] in HE.
      + destruct (group_inj (s2b "AND") (s2b "AND") l l') as [_ E]; auto. f_equal. apply HL; auto.
      + destruct (group_inj (s2b "AND") (s2b "OR") l l') as [E _]; auto. discriminate E.
    - destruct e' as [| | | | | | |l'|l'| | | | | |]; try contradiction; try discriminate HD; destruct HS as [_ HS], HS' as [_ HS'], HR as [L1 HR], HR' as [L2 HR']; apply sentence_list in HS, HS'; apply proper_list in HR, HR'; cbn [linesE] in HE.
      + destruct (group_inj (s2b "OR") (s2b "AND") l l') as [E _]; auto. discriminate E.
      + destruct (group_inj (s2b "OR") (s2b "OR") l l') as [_ E]; auto. f_equal. apply HL; auto.
    - destruct e'; try contradiction; try discriminate HD. destruct HS as [[r [p [-> HF]]] HS], HS' as [[r' [p' [-> HF']]] HS']. cbn [leadOf] in HD. injection HD as -> HD.
      apply word_split in HD as [E1 E2]; try apply digits_solid; try (cbn; tauto). apply appendUint_inj in E1 as ->. injection E2 as E2. apply showField_inj in E2 as [-> ->]; auto. cbn [linesE] in HE. injection HE as HE. apply block_split in HE as [HE _]; [|cbn; discriminate|cbn; discriminate].
      f_equal. apply IHe2; auto.
    - destruct e'; try contradiction; try discriminate HD. cbn [leadOf] in HD. injection HD as HD. destruct HS as [HS _], HS' as [HS' _]. f_equal. apply (phrase_inj e HS e' [] [] HS' I I). rewrite !app_nil_r. exact HD.
    - destruct e'; try contradiction; try discriminate HD. cbn [leadOf] in HD. injection HD as HD. destruct HS as [HS _], HS' as [HS' _]. f_equal. apply (phrase_inj e HS e' [] [] HS' I I). rewrite !app_nil_r. exact HD.
    - destruct e'; try contradiction; try discriminate HD. cbn [leadOf] in HD. injection HD as -> H1 H2. destruct HS as [HS1 HS2], HS' as [HT1 HT2].
      f_equal; [apply (phrase_inj e1 HS1 e'1 [] [] HT1 I I)|apply (phrase_inj e2 HS2 e'2 [] [] HT2 I I)]; rewrite !app_nil_r; assumption.
  Qed.

  (** ** Groups of one *)
  Lemma ungroup_ok : forall e, sentence K e -> sentence K (ungroup e) /\ proper (ungroup e) /\ linesE (ungroup e) = linesE e.
  Proof.
    assert (forall l, Forall (fun e => sentence K e -> sentence K (ungroup e) /\ proper (ungroup e) /\ linesE (ungroup e) = linesE e) l -> Forall (sentence K) l ->
      Forall (sentence K) (map ungroup l) /\ Forall proper (map ungroup l) /\ map linesE (map ungroup l) = map linesE l) as HL.
    { induction l as [|a l IH]; intros A B; [repeat split; constructor|]. inversion A as [|? ? A1 A2]; inversion B as [|? ? B1 B2]; subst. destruct (A1 B1) as [X [Y Z]]. destruct (IH A2 B2) as [X' [Y' Z']].
      cbn [map]. rewrite Z, Z'. repeat split; auto. }
    intros e. induction e using expr_ind'; intros HS; try contradiction; try (split; [exact HS|split; [exact I|reflexivity]]).
    - destruct (IHe HS) as [A [B C]]. cbn [ungroup linesE]. rewrite C. auto.
    - destruct HS as [N HS]. apply sentence_list in HS. destruct (HL l H HS) as [A [B C]]. destruct l as [|a [|b l]]; [contradiction|inversion H; inversion HS; subst; cbn [ungroup linesE map groupLines]; auto|].
      change (ungroup (XAnd (a :: b :: l))) with (XAnd (map ungroup (a :: b :: l))). split; [|split].
      + split; [discriminate|apply sentence_list; exact A].
      + split; [cbn [map length]; lia|apply proper_list; exact B].
      + cbn [linesE]. rewrite C. reflexivity.
    - destruct HS as [N HS]. apply sentence_list in HS. destruct (HL l H HS) as [A [B C]]. destruct l as [|a [|b l]]; [contradiction|inversion H; inversion HS; subst; cbn [ungroup linesE map groupLines]; auto|].
      change (ungroup (XOr (a :: b :: l))) with (XOr (map ungroup (a :: b :: l))). split; [|split].
      + split; [discriminate|apply sentence_list; exact A].
      + split; [cbn [map length]; lia|apply proper_list; exact B].
      + cbn [linesE]. rewrite C. reflexivity.
    - destruct HS as [HI HS]. destruct (IHe2 HS) as [A [B C]]. cbn [ungroup linesE]. rewrite C. split; [split; auto|]. auto.
  Qed.
  Theorem show_inj : forall e e', sentence K e -> sentence K e' -> show e = show e' -> ungroup e = ungroup e'.
  Proof.
    intros e e' H H' HE. destruct (show_lines e H) as [A1 [A2 A3]]. destruct (show_lines e' H') as [B1 [B2 B3]]. rewrite A1, B1 in HE. apply join_inj in HE; auto.
    destruct (ungroup_ok e H) as [X1 [X2 X3]]. destruct (ungroup_ok e' H') as [Y1 [Y2 Y3]]. apply lines_inj; auto. congruence.
  Qed.
End Show.

(** Groups of one mean what the member means. *)
Lemma ungroup_truth : forall o doc e cur, truth o doc cur (ungroup e) = truth o doc cur e.
Proof.
  intros o doc e. induction e using expr_ind'; intros cur; try reflexivity.
  - cbn [ungroup truth]. rewrite IHe. reflexivity.
  - assert (forall m, Forall (fun e => forall cur, truth o doc cur (ungroup e) = truth o doc cur e) m -> forallb (truth o doc cur) (map ungroup m) = forallb (truth o doc cur) m) as HF.
    { induction m as [|a m IH]; intro F; [reflexivity|]. inversion F; subst. cbn [map forallb]. rewrite H2, IH by assumption. reflexivity. }
    destruct l as [|a [|b l]]; [reflexivity|inversion H; subst; cbn [ungroup truth forallb]; rewrite H2, andb_true_r; reflexivity|].
    change (ungroup (XAnd (a :: b :: l))) with (XAnd (map ungroup (a :: b :: l))). cbn [truth]. now apply HF.
  - assert (forall m, Forall (fun e => forall cur, truth o doc cur (ungroup e) = truth o doc cur e) m -> existsb (truth o doc cur) (map ungroup m) = existsb (truth o doc cur) m) as HF.
    { induction m as [|a m IH]; intro F; [reflexivity|]. inversion F; subst. cbn [map existsb]. rewrite H2, IH by assumption. reflexivity. }
    destruct l as [|a [|b l]]; [reflexivity|inversion H; subst; cbn [ungroup truth existsb]; rewrite H2, orb_false_r; reflexivity|].
    change (ungroup (XOr (a :: b :: l))) with (XOr (map ungroup (a :: b :: l))). cbn [truth]. now apply HF.
  - cbn [ungroup truth]. destruct e1; try reflexivity. destruct (fieldAt doc cur root path) as [[]|]; try reflexivity. f_equal. apply map_ext. intros a. apply IHe2.
Qed.
