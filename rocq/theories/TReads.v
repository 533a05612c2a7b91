(** The grammar of text filters: whatever is accepted (C64). *)
From Coq Require Import String Ascii.
From Verif Require Import Base MTokenizer SJson MLit MFastVal MMath SFormula SEvents MExpr MTransform MMatcher SFilter MTree SDoc SSat SSem
  PTree PWf PCheck TReset TMatch SExamples MText SText PText TText MGrammar SGrammar PGrammar PGrammarSafe TGrammar SReads PReads.
From Coq Require Import List NArith ZArith Arith Lia Bool.
From Coq Require Import Floats.SpecFloat.
Import ListNotations.
Open Scope string_scope.
Open Scope list_scope.
Open Scope nat_scope.

(** ** C64: what is read is what is written *)

(** A text from which an expression is made is a text of a filter, and the expression is
    the one made of that filter; the only readings that are not the literal ones are
    those [textOf] names: of the terms behind a field the last operator and the last
    number count, and several minus signs are one. *)
Theorem C64_reads : forall L intOf floatOf o x ts t e,
  parseTokens L intOf floatOf ts = Ok t -> outputExpression o x t = Ok e ->
  exists f, textOf intOf floatOf (qFilter f) ts /\ outputExpression o x (tree f) = Ok e /\ filterMatcher o x t = filterMatcher o x (tree f).
Proof.
  intros L intOf floatOf o x ts t e E X. destruct (parse_reads L intOf floatOf ts t E) as [(f & HT & HO)|HE]; [|rewrite HE in X; discriminate].
  exists f. split; auto. unfold filterMatcher. rewrite <- HO. auto.
Qed.
(** Whether a text is accepted at all, and the filter it is read as, do not depend on
    anything but the text. *)
Theorem C64_text : forall L intOf floatOf ts t, parseTokens L intOf floatOf ts = Ok t ->
  (exists f, textOf intOf floatOf (qFilter f) ts /\ forall o x, filterMatcher o x t = filterMatcher o x (tree f)) \/ forall o x, filterMatcher o x t = Err.
Proof.
  intros L intOf floatOf ts t E. destruct (parse_reads L intOf floatOf ts t E) as [(f & HT & HO)|HE]; [left|right].
  - exists f. split; auto. intros o x. unfold filterMatcher. now rewrite HO.
  - intros o x. unfold filterMatcher. now rewrite HE.
Qed.
(** The answer on a document is the meaning of a filter of which this is a text. *)
Theorem C64_match : forall L intOf floatOf o x ts t e,
  parseTokens L intOf floatOf ts = Ok t -> outputExpression o x t = Ok e ->
  exists f, textOf intOf floatOf (qFilter f) ts /\
  forall w1 doc w2, allBasic basicLits f -> allBasic (basicOk o x) f -> allBasic (basicBuilds o x) f -> allBasic basicRun f ->
  ws w1 -> wf_cst doc -> ws w2 -> container doc -> distinct doc -> allBasic (fits doc) f ->
  exists D m, filterMatcher o x t = Ok (D, m) /\ ready o D m /\
  forall s0, ready o D s0 -> exists f0, forall fuel, f0 <= fuel -> exists s,
    match_ fuel o D (doc_text w1 doc w2) s0 = Ok (s, Some (means o x doc f)).
Proof.
  intros L intOf floatOf o x ts t e E X. destruct (C64_reads L intOf floatOf o x ts t e E X) as (f & HT & HO & HM). exists f. split; auto.
  intros. rewrite HM. now apply C46_match.
Qed.

(** ** Parentheses *)

(** How many are open behind these tokens, if none is closed that was not opened. *)
Fixpoint opened (d : nat) (ts : list token) : option nat :=
  match ts with
  | [] => Some d
  | t :: r => if bytes_eqb (tk_text t) (s2b "(") then opened (S d) r
              else if bytes_eqb (tk_text t) (s2b ")") then match d with O => None | S d => opened d r end
              else opened d r
  end.
(** Quoted tokens, names and numbers are not parentheses. *)
Definition plainText (ts : list token) : Prop := Forall (fun t => tk_kind t <> KOther -> tk_text t <> s2b "(" /\ tk_text t <> s2b ")") ts.

Definition textQ (p : pat) : bytes := match p with PWord b | PTok KOther b => b | _ => [] end.
Fixpoint openedQ (d : nat) (q : list pat) : option nat :=
  match q with
  | [] => Some d
  | p :: r => if bytes_eqb (textQ p) (s2b "(") then openedQ (S d) r
              else if bytes_eqb (textQ p) (s2b ")") then match d with O => None | S d => openedQ d r end
              else openedQ d r
  end.
Definition even (q : list pat) : Prop := forall d r, openedQ d (q ++ r) = openedQ d r.
Lemma even_nil : even [].
Proof. intros d r. reflexivity. Qed.
Lemma even_app : forall q r, even q -> even r -> even (q ++ r).
Proof. intros q r H1 H2 d s. now rewrite <- app_assoc, H1, H2. Qed.
Lemma even_cons : forall p q, even [p] -> even q -> even (p :: q).
Proof. intros p q H1 H2. exact (even_app [p] q H1 H2). Qed.
Lemma even_paren : forall q, even q -> even (w_ "(" :: q ++ [w_ ")"]).
Proof. intros q H d r. cbn [app openedQ w_ textQ]. change (bytes_eqb (s2b "(") (s2b "(")) with true. cbn iota. rewrite <- app_assoc, H. reflexivity. Qed.
Lemma even_flat : forall X (q : X -> list pat) l, (forall x, even (q x)) -> even (flat_map q l).
Proof. induction l as [|a l IH]; intro H; [exact even_nil|]. cbn [flat_map]. apply even_app; auto. Qed.
Ltac ev := match goal with
  | |- even [] => exact even_nil
  | |- even [_] => intros ? ?; reflexivity
  end.
Lemma ev_num : forall n, even (qNum n).
Proof. intros [neg z|neg f]; cbn [qNum]; (apply even_cons; ev). Qed.
Lemma ev_value : forall v, even (qValue v).
Proof. intros [n|s]; cbn [qValue]; [apply ev_num|ev]. Qed.
Lemma ev_name : forall n, even (qName n).
Proof. intros [b|b|b|]; cbn [qName]; try ev. apply even_cons; [ev|]. exact (even_paren [] even_nil). Qed.
Lemma ev_seg : forall s, even (qSeg s).
Proof. intro s. unfold qSeg. apply even_app; [apply ev_name|]. apply even_flat. intro i. unfold qIdx. repeat (apply even_cons; [ev|]). ev. Qed.
Lemma ev_field : forall f, even (qField f).
Proof. intro f. unfold qField. apply even_cons; [ev|]. apply even_app; [apply ev_seg|]. apply even_flat. intro s. apply even_cons; [ev|apply ev_seg]. Qed.
Lemma ev_aop : forall p, even [t_ (aopSym p)].
Proof. intros []; ev. Qed.
Lemma ev_term : forall t, even (qTerm t).
Proof. intros [p [n|f]]; unfold qTerm; cbn [fst snd]; (apply even_cons; [apply ev_aop|]); [apply ev_num|apply ev_field]. Qed.
Lemma ev_math : forall m, even (qMath m).
Proof.
  intros [f|n p f|f p n|f p g]; cbn [qMath].
  - apply ev_field.
  - apply even_app; [apply ev_num|]. apply even_cons; [apply ev_aop|apply ev_field].
  - apply even_app; [apply ev_field|ev].
  - apply even_app; [apply ev_field|ev].
Qed.
Lemma ev_call_arg : (forall c, even (qCall c)) /\ (forall a, even (qArg a)).
Proof.
  apply call_arg_ind.
  - intro b. cbn [qCall]. apply even_cons; [ev|]. apply even_cons; [ev|]. exact (even_paren [] even_nil).
  - intro b. cbn [qCall]. apply even_cons; [ev|]. apply even_cons; [ev|]. exact (even_paren [] even_nil).
  - intros b f a H. change (even (PSigns b :: t_ (fun1Word f) :: w_ "(" :: qArg a ++ [w_ ")"])). apply even_cons; [ev|]. apply even_cons; [destruct f; ev|]. now apply even_paren.
  - intros b a Ha c Hc. change (even (PSigns b :: w_ "ATAN2" :: w_ "(" :: qArg a ++ w_ "," :: qArg c ++ [w_ ")"])). apply even_cons; [ev|]. apply even_cons; [ev|].
    replace (qArg a ++ w_ "," :: qArg c ++ [w_ ")"]) with ((qArg a ++ w_ "," :: qArg c) ++ [w_ ")"]) by now rewrite <- app_assoc. apply even_paren. apply even_app; [auto|]. apply even_cons; [ev|auto].
  - intros b a Ha c Hc. change (even (PSigns b :: w_ "POW" :: w_ "(" :: qArg a ++ w_ "," :: qArg c ++ [w_ ")"])). apply even_cons; [ev|]. apply even_cons; [ev|].
    replace (qArg a ++ w_ "," :: qArg c ++ [w_ ")"]) with ((qArg a ++ w_ "," :: qArg c) ++ [w_ ")"]) by now rewrite <- app_assoc. apply even_paren. apply even_app; [auto|]. apply even_cons; [ev|auto].
  - auto.
  - intro f. apply ev_math.
  - intro v. apply ev_value.
Qed.
Lemma ev_side : forall s, even (qSide s).
Proof. intros [c|u b|m|v]; cbn [qSide]; [apply ev_call_arg|destruct u, b; ev|apply ev_math|apply ev_value]. Qed.
Lemma ev_basic : forall b, even (qBasic b).
Proof.
  destruct ev_call_arg as [HC HA].
  intros [u c|a p|a c|f|l p r|neg l|neg l]; cbn [qBasic].
  - destruct u, c; ev.
  - apply even_cons; [ev|]. replace (qArg a ++ w_ "," :: qValue p ++ [w_ ")"]) with ((qArg a ++ w_ "," :: qValue p) ++ [w_ ")"]) by now rewrite <- app_assoc.
    apply even_paren. apply even_app; [auto|]. apply even_cons; [ev|apply ev_value].
  - apply even_cons; [ev|]. replace (qArg a ++ w_ "," :: qCall c ++ [w_ ")"]) with ((qArg a ++ w_ "," :: qCall c) ++ [w_ ")"]) by now rewrite <- app_assoc.
    apply even_paren. apply even_app; [auto|]. apply even_cons; [ev|auto].
  - apply even_cons; [ev|]. apply even_paren, ev_field.
  - apply even_app; [apply ev_side|]. apply even_app; [|apply ev_side]. destruct p as [[]|[]| | | |]; intros d s; reflexivity.
  - apply even_app; [apply ev_side|]. destruct neg; intros d s; reflexivity.
  - apply even_app; [apply ev_side|]. destruct neg; intros d s; reflexivity.
Qed.
Lemma ev_cond : forall c, even (qCond c).
Proof. induction c as [c IH|b]; cbn [qCond]; [apply even_cons; [ev|auto]|apply ev_basic]. Qed.
Lemma ev_go : forall X w (q : X -> list pat) l, even [w_ w] -> Forall (fun x => even (q x)) l -> even (goQ w q l).
Proof. intros X w q l H HF. induction HF; [exact even_nil|]. cbn [goQ]. apply even_cons; auto. now apply even_app. Qed.
Lemma ev_filter : forall f, even (qFilter f).
Proof.
  apply (filter_ind' (fun f => even (qFilter f)) (fun c => even (qConj c)) (fun t => even (qTerm_ t))).
  - intros a l Ha Hl. change (even (qConj a ++ goQ "OR" qConj l)). apply even_app; auto. apply ev_go; auto. ev.
  - intros a l Ha Hl. change (even (qTerm_ a ++ goQ "AND" qTerm_ l)). apply even_app; auto. apply ev_go; auto. ev.
  - intros f Hf. change (even (w_ "(" :: qFilter f ++ [w_ ")"])). now apply even_paren.
  - apply ev_cond.
Qed.
Lemma opened_app : forall a b d, opened d (a ++ b) = match opened d a with Some e => opened e b | None => None end.
Proof. induction a as [|t a IH]; intros b d; cbn [app opened]; auto. destruct (bytes_eqb (tk_text t) (s2b "(")); auto. destruct (bytes_eqb (tk_text t) (s2b ")")); auto. now destruct d. Qed.
Lemma opened_plain : forall t r d, tk_kind t <> KOther -> plainText [t] -> opened d (t :: r) = opened d r.
Proof.
  intros t r d H HP. inversion HP as [|? ? H1 H2]; subst. destruct (H1 H) as [N1 N2]. cbn [opened]. destruct (bytes_eqb (tk_text t) (s2b "(")) eqn:E1; [now apply Base.bytes_eqb_eq in E1|].
  destruct (bytes_eqb (tk_text t) (s2b ")")) eqn:E2; [now apply Base.bytes_eqb_eq in E2|]. reflexivity.
Qed.
Lemma opened_text : forall intOf floatOf q ts, textOf intOf floatOf q ts -> plainText ts -> forall d, opened d ts = openedQ d q.
Proof.
  intros intOf floatOf q ts H. induction H as [|b t q ts HB H IH|k b q ts H IH|z b q ts HI H IH|f b q ts HI H IH|neg sg q ts HS HN H IH|p x l us q ts HC H1 IH1 H IH]; intros HP d.
  - reflexivity.
  - inversion HP; subst. cbn [opened openedQ textQ]. destruct d; now rewrite !IH by auto.
  - inversion HP as [|? ? H1 H2]; subst.
    destruct k; try (rewrite opened_plain; [|discriminate|constructor; auto; constructor]; cbn [openedQ textQ]; change (bytes_eqb [] (s2b "(")) with false; change (bytes_eqb [] (s2b ")")) with false; cbn iota; now apply IH).
    cbn [opened openedQ textQ tk_text]. destruct d; now rewrite !IH by auto.
  - inversion HP; subst. rewrite opened_plain; [|discriminate|constructor; auto; constructor]. now apply IH.
  - inversion HP; subst. rewrite opened_plain; [|discriminate|constructor; auto; constructor]. now apply IH.
  - apply Forall_app in HP as [HP1 HP2]. change (openedQ d (PSigns neg :: q)) with (openedQ d q). rewrite <- IH by auto. clear HP1 HN H IH HP2.
    induction HS as [|t sg Ht HS IH]; [reflexivity|]. cbn [app opened]. rewrite Ht. exact IH.
  - apply Forall_app in HP as [HP1 HP2]. change (openedQ d (PTail p x :: q)) with (openedQ d q). rewrite opened_app, IH1 by auto.
    pose proof (even_flat _ qTerm l ev_term d []) as E. rewrite app_nil_r in E. rewrite E. now apply IH.
Qed.

(** A text that is accepted closes every parenthesis it opens and no other, unless
    something quoted is spelled like a parenthesis. *)
Theorem C64_parentheses : forall L intOf floatOf o x ts t e, plainText ts ->
  parseTokens L intOf floatOf ts = Ok t -> outputExpression o x t = Ok e -> opened 0 ts = Some 0.
Proof.
  intros L intOf floatOf o x ts t e HP E X. destruct (C64_reads L intOf floatOf o x ts t e E X) as (f & HT & _).
  rewrite (opened_text _ _ _ _ HT HP). pose proof (ev_filter f 0 []) as V. rewrite app_nil_r in V. exact V.
Qed.

(** ** The specification admits what is written *)
Section Fits.
  Variable ftxt : float -> bytes.
  Variable intOf : bytes -> option Z.
  Variable floatOf : bytes -> option float.
  Variable look : nat.
  Local Notation textOf := (textOf intOf floatOf).
  Let app2 := text_app intOf floatOf.
  Let cons2 := text_cons intOf floatOf.
  Lemma fit_word : forall s, textOf [w_ s] [word s].
  Proof. intro. now apply text_word. Qed.
  Lemma fit_sym : forall s, textOf [w_ s] [sym s].
  Proof. intro. now apply text_word. Qed.
  Lemma fit_tok : forall k b, textOf [PTok k b] [Tk k b].
  Proof. intros. constructor. constructor. Qed.
  Lemma fit_t : forall t, textOf [t_ t] [t].
  Proof. intros. now apply text_word. Qed.
  Lemma fit_minus : forall b, textOf [PSigns b] (minus b).
  Proof. intros. rewrite <- (app_nil_r (minus b)). apply f_signs; [|destruct b; cbn; split; congruence|constructor]. destruct b; repeat constructor. Qed.
  Lemma fit_num : forall n, numSafe ftxt intOf floatOf n -> textOf (qNum n) (wNum ftxt n).
  Proof. intros [neg z|neg f] [H _]; cbn [qNum wNum]; (apply cons2; [apply fit_minus|]); repeat constructor; auto. Qed.
  Lemma fit_value : forall v, valueSafe ftxt intOf floatOf v -> textOf (qValue v) (wValue ftxt v).
  Proof. intros [n|s] H; [now apply fit_num|apply fit_tok]. Qed.
  Lemma fit_name : forall n, textOf (qName n) (wName n).
  Proof. intros [b|b|b|]; try apply fit_tok. apply (cons2 _ _ [word "META"]); [apply fit_word|]. apply (cons2 _ _ [sym "("]); apply fit_sym. Qed.
  Lemma fit_flat : forall X (q : X -> list pat) w l, (forall x, textOf (q x) (w x)) -> textOf (flat_map q l) (flat_map w l).
  Proof. induction l as [|a l IH]; intro H; [constructor|]. cbn [flat_map]. apply app2; auto. Qed.
  Lemma fit_seg : forall s, textOf (qSeg s) (wSeg s).
  Proof.
    intro s. apply app2; [apply fit_name|]. apply fit_flat. intro i. apply (cons2 _ _ [sym "["]); [apply fit_sym|]. apply (cons2 _ _ [Tk KInt i]); [apply fit_tok|apply fit_sym].
  Qed.
  Lemma fit_field : forall f, textOf (qField f) (wField f).
  Proof.
    intro f. apply cons2; [apply fit_minus|]. apply app2; [apply fit_seg|]. apply fit_flat. intro s. apply (cons2 _ _ [sym "."]); [apply fit_sym|apply fit_seg].
  Qed.
  Lemma fit_math : forall m, mathSafe ftxt intOf floatOf m -> textOf (qMath m) (wMath ftxt m).
  Proof.
    assert (forall p x u, textOf (qTerm (p, x)) u -> textOf [PTail p x] u) as HT.
    { intros p x u H. rewrite <- (app_nil_r u). econstructor; [|rewrite <- (app_nil_r (qTerm (p, x))) in H; exact (H : textOf (flat_map qTerm [(p, x)]) u)|constructor].
      destruct x; repeat split; exists []; reflexivity. }
    intros [f|n p f|f p n|f p g] H; cbn [qMath wMath mathSafe] in *.
    - apply fit_field.
    - destruct H. apply app2; [now apply fit_num|]. apply (cons2 _ _ [aopSym p]); [apply fit_t|apply fit_field].
    - destruct H. apply app2; [apply fit_field|]. apply HT. apply (cons2 _ _ [aopSym p]); [apply fit_t|now apply fit_num].
    - apply app2; [apply fit_field|]. apply HT. apply (cons2 _ _ [aopSym p]); [apply fit_t|apply fit_field].
  Qed.
  Lemma fit_call_arg : (forall c, callSafe ftxt intOf floatOf look c -> textOf (qCall c) (wCall ftxt c)) /\ (forall a, argSafe ftxt intOf floatOf look a -> textOf (qArg a) (wArg ftxt a)).
  Proof.
    assert (textOf [w_ "("; w_ ")"] [sym "("; sym ")"]) as HP by (apply (cons2 _ _ [sym "("]); apply fit_sym).
    assert (forall q u, textOf q u -> textOf (w_ "(" :: q ++ [w_ ")"]) (sym "(" :: u ++ [sym ")"])) as HQ.
    { intros q u H. apply (cons2 _ _ [sym "("]); [apply fit_sym|]. apply app2; [auto|apply fit_sym]. }
    assert (forall q u q' u', textOf q u -> textOf q' u' -> textOf (w_ "(" :: q ++ w_ "," :: q' ++ [w_ ")"]) (sym "(" :: u ++ sym "," :: u' ++ [sym ")"])) as HR.
    { intros q u q' u' H H'. apply (cons2 _ _ [sym "("]); [apply fit_sym|]. apply app2; [auto|]. apply (cons2 _ _ [sym ","]); [apply fit_sym|]. apply app2; [auto|apply fit_sym]. }
    apply call_arg_ind.
    - intros b _. apply cons2; [apply fit_minus|]. apply (cons2 _ _ [word "PI"]); [apply fit_word|exact HP].
    - intros b _. apply cons2; [apply fit_minus|]. apply (cons2 _ _ [word "E"]); [apply fit_word|exact HP].
    - intros b f a H HS. apply (cons2 (PSigns b) (t_ (fun1Word f) :: w_ "(" :: qArg a ++ [w_ ")"]) (minus b) (fun1Word f :: sym "(" :: wArg ftxt a ++ [sym ")"])); [apply fit_minus|].
      apply (cons2 _ _ [fun1Word f]); [apply fit_t|]. apply HQ. exact (H HS).
    - intros b a Ha c Hc [H1 H2]. apply (cons2 (PSigns b) (w_ "ATAN2" :: w_ "(" :: qArg a ++ w_ "," :: qArg c ++ [w_ ")"]) (minus b) (word "ATAN2" :: sym "(" :: wArg ftxt a ++ sym "," :: wArg ftxt c ++ [sym ")"])); [apply fit_minus|].
      apply (cons2 _ _ [word "ATAN2"]); [apply fit_word|]. apply HR; [exact (Ha H1)|exact (Hc H2)].
    - intros b a Ha c Hc [H1 H2]. apply (cons2 (PSigns b) (w_ "POW" :: w_ "(" :: qArg a ++ w_ "," :: qArg c ++ [w_ ")"]) (minus b) (word "POW" :: sym "(" :: wArg ftxt a ++ sym "," :: wArg ftxt c ++ [sym ")"])); [apply fit_minus|].
      apply (cons2 _ _ [word "POW"]); [apply fit_word|]. apply HR; [exact (Ha H1)|exact (Hc H2)].
    - auto.
    - intros f H. now apply fit_math.
    - intros v [H _]. now apply fit_value.
  Qed.
  Lemma fit_lhs : forall s, lhsSafe ftxt intOf floatOf look s -> textOf (qSide s) (wSide ftxt s).
  Proof. intros [c|u b|m|v] [_ H]; cbn [qSide wSide]; [now apply fit_call_arg|apply fit_t|now apply fit_math|apply fit_value; apply H]. Qed.
  Lemma fit_rhs : forall p s, rhsSafe ftxt intOf floatOf look p s -> textOf (qSide s) (wSide ftxt s).
  Proof.
    intros p [c|u b|m|v] [_ H]; cbn [qSide wSide]; [now apply fit_call_arg|apply fit_t| |apply fit_value; apply H].
    apply fit_math. destruct m; try apply H. destruct H.
  Qed.
  Lemma fit_basic : forall b, basicSafe ftxt intOf floatOf look b -> textOf (qBasic b) (wBasic ftxt b).
  Proof.
    destruct fit_call_arg as [HC HA].
    intros [u c|a p|a c|f|l p r|neg l|neg l] H; cbn [qBasic wBasic SGrammar.basicSafe] in *.
    - apply fit_t.
    - destruct H. apply (cons2 _ _ [word "REGEXP_CONTAINS"]); [apply fit_word|]. apply (cons2 _ _ [sym "("]); [apply fit_sym|]. apply app2; [auto|].
      apply (cons2 _ _ [sym ","]); [apply fit_sym|]. apply app2; [now apply fit_value|apply fit_sym].
    - destruct H. apply (cons2 _ _ [word "REGEXP_CONTAINS"]); [apply fit_word|]. apply (cons2 _ _ [sym "("]); [apply fit_sym|]. apply app2; [auto|].
      apply (cons2 _ _ [sym ","]); [apply fit_sym|]. apply app2; [auto|apply fit_sym].
    - apply (cons2 _ _ [word "EXISTS"]); [apply fit_word|]. apply (cons2 _ _ [sym "("]); [apply fit_sym|]. apply app2; [apply fit_field|apply fit_sym].
    - destruct H as [H1 H2]. apply app2; [now apply fit_lhs|]. apply app2; [|now apply fit_rhs with p]. generalize (wCop p) as l0. induction l0 as [|t l0 IH]; [constructor|]. cbn [map]. apply (cons2 _ _ [t]); [apply fit_t|exact IH].
    - apply app2; [now apply fit_lhs|]. apply app2; [|apply fit_word]. destruct neg; repeat (constructor; [reflexivity|]); constructor.
    - apply app2; [now apply fit_lhs|]. apply app2; [|apply fit_word]. destruct neg; repeat (constructor; [reflexivity|]); constructor.
  Qed.
  Lemma fit_cond : forall c, allCond (basicSafe ftxt intOf floatOf look) c -> textOf (qCond c) (wCond ftxt c).
  Proof. induction c as [c IH|b]; intro H; cbn [qCond wCond]; [|now apply fit_basic]. apply (cons2 _ _ [word "NOT"]); [apply fit_word|]. apply IH. exact H. Qed.
  Lemma fit_go : forall X w (q : X -> list pat) (u : X -> list token) l, (forall x, In x l -> textOf (q x) (u x)) -> textOf (goQ w q l) (flat_map (fun x => word w :: u x) l).
  Proof.
    induction l as [|a l IH]; intro H; [constructor|]. cbn [goQ flat_map app]. apply (cons2 _ _ [word w]); [apply fit_word|]. apply app2; [apply H; now left|]. apply IH. intros. apply H. now right.
  Qed.
  (** What is written is a text of what it is written for. *)
  Theorem C64_written : forall f, allBasic (basicSafe ftxt intOf floatOf look) f -> textOf (qFilter f) (wFilter ftxt f).
  Proof.
    apply (filter_ind' (fun f => allBasic (basicSafe ftxt intOf floatOf look) f -> textOf (qFilter f) (wFilter ftxt f))
             (fun c => allConj (basicSafe ftxt intOf floatOf look) c -> textOf (qConj c) (wConj ftxt c))
             (fun t => allTerm (basicSafe ftxt intOf floatOf look) t -> textOf (qTerm_ t) (wTerm ftxt t))).
    - intros a l Ha Hl HS. apply all_or in HS as [S1 S2]. rewrite wFilter_eq. change (qFilter (FOr a l)) with (qConj a ++ goQ "OR" qConj l). apply app2; [now apply Ha|].
      apply fit_go. intros c Hc. rewrite Forall_forall in Hl. auto.
    - intros a l Ha Hl HS. apply all_and in HS as [S1 S2]. rewrite wConj_eq. change (qConj (FAnd a l)) with (qTerm_ a ++ goQ "AND" qTerm_ l). apply app2; [now apply Ha|].
      apply fit_go. intros c Hc. rewrite Forall_forall in Hl. auto.
    - intros f Hf HS. change (textOf (w_ "(" :: qFilter f ++ [w_ ")"]) (sym "(" :: wFilter ftxt f ++ [sym ")"])). apply (cons2 _ _ [sym "("]); [apply fit_sym|]. apply app2; [now apply Hf|apply fit_sym].
    - intros c HS. now apply fit_cond.
  Qed.
End Fits.

(** ** Examples *)

(** [a + 1 - b = 3] is a text of [a - 1 = 3], which is what it is read as, and not of
    [a + 1 = 3]: the operator that counts is the last. *)
Example C64_sum : textOf exInt exFloat (qFilter (cmp1 (SField (FNumR (fd "a") Minus (NInt false 1))) (OEq false) (vi 3))) (lex "a + 1 - b = 3").
Proof.
  apply (f_signs _ _ false []); [constructor|split; auto|]. apply f_tok. apply (f_tail _ _ Minus (inl (NInt false 1)) [(Plus, inl (NInt false 1)); (Minus, inr (fd "b"))] (lex "+ 1 - b")).
  - split; [now exists [Plus]|now exists []].
  - apply f_word; [reflexivity|]. apply (f_signs _ _ false []); [constructor|split; auto|]. apply f_int; [reflexivity|]. apply f_word; [reflexivity|].
    apply (f_signs _ _ false []); [constructor|split; auto|]. apply f_tok. apply f_nil.
  - apply f_word; [reflexivity|]. apply (f_signs _ _ false []); [constructor|split; auto|]. apply f_int; [reflexivity|]. apply f_nil.
Qed.
(** What [exF] is written as is accepted, plain and balanced; closing one parenthesis
    more, or one less, is not accepted. *)
Example C64_example : parseTokens lib1 exInt exFloat (wFilter exTxt exF) = Ok (tree exF) /\ (forall o x, exists e, outputExpression o x (tree exF) = Ok e)
  /\ opened 0 (wFilter exTxt exF) = Some 0
  /\ refused "( a = 5 AND ( b = 2 OR c = 3 )" = true /\ refused "( a = 5 AND ( b = 2 OR c = 3 ) ) )" = true /\ accepted "( a = 5 AND ( b = 2 OR c = 3 ) )" = true.
Proof.
  split; [rewrite exF_words; exact exF_read|]. split; [intros o x; eexists; reflexivity|]. repeat split; vm_compute; reflexivity.
Qed.
Example C64_example_plain : plainText (wFilter exTxt exF).
Proof. rewrite exF_words. unfold plainText. vm_compute. repeat (apply Forall_cons; [intro H; first [split; discriminate|destruct (H eq_refl)]|]). apply Forall_nil. Qed.
(** A quoted parenthesis counts as one, so the condition on quoted tokens is needed:
    the grammar accepts this although only one of its parentheses is written as such. *)
Theorem C64_quoted_refuted : exists t, rd "( a = 1 "")""" = Ok t /\ forall o x, exists e, outputExpression o x t = Ok e.
Proof. eexists. split; [vm_compute; reflexivity|]. intros o x. eexists. vm_compute. reflexivity. Qed.

Print Assumptions C64_reads.
Print Assumptions C64_text.
Print Assumptions C64_match.
Print Assumptions C64_parentheses.
Print Assumptions C64_written.
Print Assumptions C64_quoted_refuted.
