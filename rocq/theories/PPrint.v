(** Proofs: the text shown for a text filter. *)
From Coq Require Import String.
From Verif Require Import Base MTokenizer SJson MLit MFastVal MMath MExpr MTransform MText SText PText MGrammar SGrammar PGrammarSafe MPrint SPrint.
From Coq Require Import List NArith ZArith Arith Lia Bool.
From Coq Require Import Floats.SpecFloat.
Import ListNotations.
Open Scope string_scope.
Open Scope list_scope.
Open Scope nat_scope.

Section Show.
  Variable P : token -> bytes -> Prop.
  Variable okb : Prop.
  Hypothesis PT : forall t, P t (tk_text t).
  Hypothesis PB : okb -> forall u b, P (boolWord u b) (tk_text (boolWord u b) ++ s2b "(bool)").
  Variable x : textEnv.
  Notation ft := (x_fmtV x).

  Definition sp (ts : list token) (s : bytes) : Prop := ts <> [] /\ spaced P ts s.
  Lemma sp_t : forall t, sp [t] (tk_text t).
  Proof. intros. split; [discriminate|]. constructor. apply PT. Qed.
  Lemma sp_join : forall a s b t, sp a s -> sp b t -> sp (a ++ b) (s ++ s2b " " ++ t).
  Proof.
    intros a s b t [HA HS] [HB HT]. split; [destruct a; [contradiction|discriminate]|]. destruct b as [|u r]; [contradiction|]. clear HB.
    revert HA. induction HS as [|v w Hv|v w y k z Hv Hz IH|v w y k z Hv Hk Hz IH]; intros C; try contradiction.
    - cbn [app]. now apply sp_gap.
    - cbn [app]. rewrite <- !app_assoc. apply sp_gap; auto. apply IH. discriminate.
    - cbn [app]. rewrite <- !app_assoc. apply sp_tight; auto. apply IH. discriminate.
  Qed.
  Definition starts (ts : list token) : Prop := match ts with t :: _ => tk_kind t = KOther | [] => False end.
  Definition ends (ts : list token) : Prop := match rev ts with t :: _ => tk_kind t = KOther | [] => False end.
  Lemma sp_stick : forall a s b t, sp a s -> sp b t -> ends a \/ starts b -> sp (a ++ b) (s ++ t).
  Proof.
    intros a s b t [HA HS] [HB HT] HE. split; [destruct a; [contradiction|discriminate]|]. destruct b as [|u r]; [contradiction|]. clear HB.
    revert HE HA. induction HS as [|v w Hv|v w y k z Hv Hz IH|v w y k z Hv Hk Hz IH]; intros HE C; try contradiction.
    - cbn [app]. now apply sp_tight.
    - cbn [app]. rewrite <- !app_assoc. apply sp_gap; auto. apply IH; [|discriminate]. destruct HE as [HE|HE]; [left|now right].
      unfold ends in *. cbn [rev] in HE. cbn [rev]. destruct (rev k ++ [y]) as [|q l] eqn:E; [destruct (rev k); discriminate|]. exact HE.
    - cbn [app]. rewrite <- !app_assoc. apply sp_tight; auto. apply IH; [|discriminate]. destruct HE as [HE|HE]; [left|now right].
      unfold ends in *. cbn [rev] in HE. cbn [rev]. destruct (rev k ++ [y]) as [|q l] eqn:E; [destruct (rev k); discriminate|]. exact HE.
  Qed.
  (** A sign before, and behind. *)
  Lemma sp_before : forall c b t, sp b t -> sp (sym c :: b) (s2b c ++ t).
  Proof. intros c b t H. apply (sp_stick [sym c]); auto; [apply (sp_t (sym c))|left; reflexivity]. Qed.
  Lemma sp_behind : forall c a s, sp a s -> sp (a ++ [sym c]) (s ++ s2b c).
  Proof. intros c a s H. apply sp_stick; auto; [apply (sp_t (sym c))|right; reflexivity]. Qed.
  Lemma sp_minus : forall neg b t, sp b t -> sp (minus neg ++ b) ((if neg then s2b "-" else []) ++ t).
  Proof. intros [] b t H; [now apply (sp_before "-")|exact H]. Qed.
  (** A parenthesis, one space, an argument, one space, a parenthesis. *)
  Lemma sp_paren : forall b t, sp b t -> sp (sym "(" :: b ++ [sym ")"]) (s2b "( " ++ t ++ s2b " )").
  Proof. intros b t H. apply (sp_join [sym "("] (s2b "(")); [apply (sp_t (sym "("))|]. apply (sp_join b t [sym ")"] (s2b ")")); auto. apply (sp_t (sym ")")). Qed.
  Lemma sp_comma : forall a s b t, sp a s -> sp b t -> sp (sym "(" :: a ++ sym "," :: b ++ [sym ")"]) (s2b "( " ++ s ++ s2b " , " ++ t ++ s2b " )").
  Proof.
    intros a s b t HA HB. apply (sp_join [sym "("] (s2b "(")); [apply (sp_t (sym "("))|]. apply (sp_join a s (sym "," :: b ++ [sym ")"]) (s2b ", " ++ t ++ s2b " )")); auto.
    apply (sp_join [sym ","] (s2b ",")); [apply (sp_t (sym ","))|]. apply (sp_join b t [sym ")"] (s2b ")")); auto. apply (sp_t (sym ")")).
  Qed.
  Lemma sp_word : forall w b t, sp b t -> starts b -> sp (w :: b) (tk_text w ++ t).
  Proof. intros w b t H HS. apply (sp_stick [w]); auto. apply sp_t. Qed.

  (** ** Values *)
  Lemma show_num : forall n, numOk n -> sp (wNum ft (asNum n)) (strMathValue x (tNum n)).
  Proof.
    intros n H. unfold strMathValue. rewrite (out_num _ H). destruct n as [neg z|neg f]; cbn [numVal asNum wNum minus app].
    - apply (sp_t (Tk KInt _)).
    - apply (sp_t (Tk KFloat _)).
  Qed.
  Lemma show_value : forall v, valueOk v -> sp (wValue ft (asValue v)) (strValue x (tValue v)).
  Proof. intros [n|s] H; [now apply show_num|]. apply (sp_t (Tk KString s)). Qed.
  Lemma show_idx : forall i, sp (wIdx i) (shIndex i).
  Proof. intro i. unfold wIdx, shIndex. apply (sp_before "["). apply (sp_behind "]" [Tk KInt i]). apply (sp_t (Tk KInt i)). Qed.
  Lemma show_indices : forall l a s, sp a s -> sp (a ++ flat_map wIdx l) (joined (s2b " ") (s :: map shIndex l)).
  Proof.
    induction l as [|i l IH]; intros a s H; [cbn [flat_map map joined]; now rewrite app_nil_r|]. cbn [flat_map map]. rewrite app_assoc.
    change (joined (s2b " ") (s :: shIndex i :: map shIndex l)) with (s ++ s2b " " ++ joined (s2b " ") (shIndex i :: map shIndex l)).
    rewrite <- app_assoc. apply sp_join; auto. apply IH. apply show_idx.
  Qed.
  Lemma show_name : forall n, sp (wName n) (nameText n).
  Proof.
    intros [b|b|b|]; [apply (sp_t (Tk KIdent b))|apply (sp_t (Tk KRaw b))|apply (sp_t (Tk KChar b))|].
    apply (sp_word (word "META") [sym "("; sym ")"] (s2b "()")); [|reflexivity]. apply (sp_before "(" [sym ")"]). apply (sp_t (sym ")")).
  Qed.
  Lemma show_seg : forall s, exists t, shOnePath (tSeg s) = Ok t /\ sp (wSeg s) t.
  Proof.
    intros [n l]. unfold wSeg. cbn [s_name s_idx]. exists (joined (s2b " ") (nameText n :: map shIndex l)). split; [|apply show_indices, show_name].
    unfold shOnePath, tSeg. cbn [s_name s_idx]. destruct n as [b|b|b|]; cbn [p_func p_str p_idx obind strStringType st_char st_raw st_ident]; try reflexivity.
    - destruct b; reflexivity.
    - destruct b; reflexivity.
  Qed.
  Lemma show_field : forall f, exists t, shField (tField f) = Ok t /\ sp (wField f) t.
  Proof.
    intros [neg a l]. unfold shField, tField, wField. cbn [fl_neg fl_first fl_rest f_path f_neg].
    assert (exists ss, showAll shOnePath (map tSeg (a :: l)) = Ok ss /\ sp (wSeg a ++ flat_map (fun s => sym "." :: wSeg s) l) (joined (s2b ".") ss)) as (ss & -> & H).
    { revert a. induction l as [|b l IH]; intro a; destruct (show_seg a) as (t & Et & HT).
      - exists [t]. cbn [map showAll flat_map joined]. rewrite Et. cbn [obind]. now rewrite app_nil_r.
      - destruct (IH b) as (ss & ES & HS). exists (t :: ss). cbn [map showAll] in ES |- *. rewrite Et. cbn [obind]. rewrite ES. cbn [obind]. split; auto.
        destruct ss as [|u ss]; [exfalso; destruct (shOnePath (tSeg b)); try discriminate; cbn [obind] in ES; match type of ES with obind ?X _ = _ => destruct X end; discriminate|].
        change (joined (s2b ".") (t :: u :: ss)) with (t ++ s2b "." ++ joined (s2b ".") (u :: ss)). cbn [flat_map].
        apply sp_stick; [exact HT|now apply sp_before|right; reflexivity]. }
    cbn [obind]. eexists. split; [reflexivity|]. replace (isSet (flag neg)) with neg by (destruct neg; reflexivity). now apply sp_minus.
  Qed.
  Lemma show_aop : forall p, shMathOp (tAop p) = tk_text (aopSym p).
  Proof. intros []; reflexivity. Qed.
  Lemma show_math : forall m, fmathOk m -> exists t, shFieldWithMath x (tFmath m) = Ok t /\ sp (wMath ft (asMath m)) t.
  Proof.
    intros [f|n p f|f p n|f p g] H; cbn [fmathOk] in H; destruct (show_field f) as (t & Et & HT); unfold shFieldWithMath; cbn [tFmath fm_type0 fm_type1 asMath wMath].
    - unfold shType1. cbn [t1_field t1_value]. rewrite Et. exists t. auto.
    - unfold shType0. cbn [t0_value t0_op t0_field]. rewrite Et. cbn [obind]. eexists. split; [reflexivity|]. cbn [joined]. rewrite show_aop.
      apply sp_join; [now apply show_num|]. apply (sp_join [aopSym p]); auto. apply sp_t.
    - unfold shType1. cbn [t1_field t1_value t1_op t1_other]. rewrite Et. cbn [obind]. eexists. split; [reflexivity|]. cbn [app joined]. rewrite show_aop.
      apply sp_join; auto. apply (sp_join [aopSym p]); [apply sp_t|now apply show_num].
    - unfold shType1. cbn [t1_field t1_value t1_op t1_other]. rewrite Et. exists t. auto.
  Qed.
  Lemma show_name1 : forall f, shName1 (tName1 f) = tk_text (fun1Word f).
  Proof. intros []; reflexivity. Qed.
  Lemma show_neg : forall neg (r : outcome bytes) t b, r = Ok t -> sp b t ->
    exists s, (do s <- r; Ok ((if isTrue (flag neg) then s2b "-" else []) ++ s)) = Ok s /\ sp (minus neg ++ b) s.
  Proof. intros neg r t b -> H. cbn [obind]. eexists. split; [reflexivity|]. replace (isTrue (flag neg)) with neg by (destruct neg; reflexivity). now apply sp_minus. Qed.
  Lemma show_neg2 : forall neg t b, sp b t -> exists s, @Ok bytes ((if isTrue (flag neg) then s2b "-" else []) ++ t) = Ok s /\ sp (minus neg ++ b) s.
  Proof. intros neg t b H. exact (show_neg neg (Ok t) t b eq_refl H). Qed.
  Lemma show_call_arg : (forall c, callLits c -> exists t, shConstFunc x (tCall c) = Ok t /\ sp (wCall ft (asCall c)) t)
    /\ (forall a, argLits a -> exists t, shArgument x (tArg a) = Ok t /\ sp (wArg ft (asArg a)) t).
  Proof.
    assert (forall w b t, sp b t -> starts b -> sp (word w :: b) (s2b w ++ t)) as W by (intros; apply (sp_word (word w)); auto).
    assert (sp [sym "("; sym ")"] (s2b "()")) as N by (apply (sp_before "(" [sym ")"]); apply (sp_t (sym ")"))).
    apply call_arg_ind.
    - intros neg _. cbn [tCall shConstFunc asCall wCall]. apply show_neg with (t := s2b "PI()"); [reflexivity|]. apply (W "PI" _ _ N). reflexivity.
    - intros neg _. cbn [tCall shConstFunc asCall wCall]. apply show_neg with (t := s2b "E()"); [reflexivity|]. apply (W "E" _ _ N). reflexivity.
    - intros neg f a IH H. cbn [callLits] in H. destruct (IH H) as (t & Et & HT).
      change (shConstFunc x (tCall (COne neg f a))) with (do s <- (do s <- shArgument x (tArg a); Ok (shName1 (tName1 f) ++ s2b "( " ++ s ++ s2b " )")); Ok ((if isTrue (flag neg) then s2b "-" else []) ++ s)).
      rewrite Et, show_name1. cbn [obind asCall wCall]. apply show_neg2. apply sp_word; [|reflexivity]. now apply sp_paren.
    - intros neg a IHa b IHb [Ha Hb]. destruct (IHa Ha) as (t & Et & HT). destruct (IHb Hb) as (u & Eu & HU).
      change (shConstFunc x (tCall (CAtan2 neg a b))) with (do s <- (do s <- shArgument x (tArg a); do t <- shArgument x (tArg b); Ok (s2b "ATAN2" ++ s2b "( " ++ s ++ s2b " , " ++ t ++ s2b " )")); Ok ((if isTrue (flag neg) then s2b "-" else []) ++ s)).
      rewrite Et, Eu. cbn [obind asCall wCall]. apply show_neg2. apply (W "ATAN2"); [|reflexivity]. now apply sp_comma.
    - intros neg a IHa b IHb [Ha Hb]. destruct (IHa Ha) as (t & Et & HT). destruct (IHb Hb) as (u & Eu & HU).
      change (shConstFunc x (tCall (CPow neg a b))) with (do s <- (do s <- shArgument x (tArg a); do t <- shArgument x (tArg b); Ok (s2b "POW" ++ s2b "( " ++ s ++ s2b " , " ++ t ++ s2b " )")); Ok ((if isTrue (flag neg) then s2b "-" else []) ++ s)).
      rewrite Et, Eu. cbn [obind asCall wCall]. apply show_neg2. apply (W "POW"); [|reflexivity]. now apply sp_comma.
    - intros c IH H. cbn [tArg shArgument asArg wArg]. now apply IH.
    - intros m H. cbn [tArg shArgument asArg wArg]. now apply show_math.
    - intros v H. cbn [tArg shArgument asArg wArg]. eexists. split; [reflexivity|]. now apply show_value.
  Qed.
  Lemma show_bool : okb -> forall u b, sp [boolWord u b] (shBoolean (tBool u b)).
  Proof. intros H u b. split; [discriminate|]. constructor. assert (shBoolean (tBool u b) = tk_text (boolWord u b) ++ s2b "(bool)") as -> by (destruct u, b; reflexivity). auto. Qed.
  Lemma show_side : forall d s, sideLits s -> okb \/ sidePlain s -> exists t, shSide x d (tSide s) = Ok t /\ sp (wSide ft (asSide s)) t.
  Proof.
    intros d [c|u b|m|v] H HB.
    - exact (proj1 show_call_arg c H).
    - destruct HB as [HB|HB]; [|destruct HB]. eexists. split; [reflexivity|]. now apply show_bool.
    - exact (show_math m H).
    - eexists. split; [reflexivity|]. now apply show_value.
  Qed.
  Lemma show_cop : forall p, sp (wCop (asCop p)) (shCompareOp (tCop p)).
  Proof.
    intros [[]|[]| | | |]; cbn [asCop wCop]; try apply (sp_t (sym _));
      [apply (sp_before "<" [sym ">"]); apply (sp_t (sym ">"))|apply (sp_before "<" [sym ">"]); apply (sp_t (sym ">"))|apply (sp_before "<" [sym "="]); apply (sp_t (sym "="))|apply (sp_before ">" [sym "="]); apply (sp_t (sym "="))].
  Qed.
  Lemma show_is : forall neg w, sp (isNot neg ++ [word w]) (s2b "IS " ++ (if neg then s2b "NOT " else []) ++ s2b w).
  Proof.
    intros neg w. unfold isNot. destruct neg; cbn [app].
    - apply (sp_join [word "IS"] (s2b "IS")); [apply (sp_t (word "IS"))|]. apply (sp_join [word "NOT"] (s2b "NOT") [word w]); [apply (sp_t (word "NOT"))|apply (sp_t (word w))].
    - apply (sp_join [word "IS"] (s2b "IS") [word w]); [apply (sp_t (word "IS"))|apply (sp_t (word w))].
  Qed.
  Lemma show_basic : forall b, basicLits b -> okb \/ basicPlain b -> exists t, shOperand x (tBasic b) = Ok t /\ sp (wBasic ft (asBasic b)) t.
  Proof.
    intros [u c|a p|a c|f|l p r|neg l|neg l] H HB; cbn [basicLits] in H; cbn [basicPlain] in HB.
    - destruct HB as [HB|HB]; [|destruct HB]. eexists. split; [reflexivity|]. now apply show_bool.
    - destruct H as [HA HP]. destruct (proj2 show_call_arg a HA) as (t & Et & HT).
      change (shOperand x (tBasic (BRegex a p))) with (do s <- shArgument x (tArg a); do t <- Ok (strValue x (tValue p)); Ok (s2b "REGEXP_CONTAINS" ++ s2b "( " ++ s ++ s2b " , " ++ t ++ s2b " )")).
      rewrite Et. cbn [obind]. eexists. split; [reflexivity|]. cbn [asBasic wBasic]. apply (sp_word (word "REGEXP_CONTAINS")); [|reflexivity]. apply sp_comma; auto. now apply show_value.
    - destruct H as [HA HP]. destruct (proj2 show_call_arg a HA) as (t & Et & HT). destruct (proj1 show_call_arg c HP) as (u & Eu & HU).
      change (shOperand x (tBasic (BRegexCall a c))) with (do s <- shArgument x (tArg a); do t <- shConstFunc x (tCall c); Ok (s2b "REGEXP_CONTAINS" ++ s2b "( " ++ s ++ s2b " , " ++ t ++ s2b " )")).
      rewrite Et, Eu. cbn [obind]. eexists. split; [reflexivity|]. cbn [asBasic wBasic]. apply (sp_word (word "REGEXP_CONTAINS")); [|reflexivity]. now apply sp_comma.
    - destruct (show_field f) as (t & Et & HT). change (shOperand x (tBasic (BExists f))) with (do s <- shField (tField f); Ok (s2b "EXISTS" ++ s2b " ( " ++ s ++ s2b " )")).
      rewrite Et. cbn [obind]. eexists. split; [reflexivity|]. cbn [asBasic wBasic]. apply (sp_join [word "EXISTS"] (s2b "EXISTS") _ (s2b "( " ++ t ++ s2b " )")); [apply (sp_t (word "EXISTS"))|now apply sp_paren].
    - destruct H as [HL HR]. assert ((okb \/ sidePlain l) /\ (okb \/ sidePlain r)) as [BL BR] by tauto.
      destruct (show_side (s2b "?? (FELhs)") l HL BL) as (t & Et & HT). destruct (show_side (s2b "?? (FERhs)") r HR BR) as (u & Eu & HU).
      unfold shOperand. cbn [tBasic o_bool o_lhs o_check o_op o_rhs]. rewrite Et. cbn [obind]. rewrite Eu. cbn [obind]. eexists. split; [reflexivity|].
      cbn [asBasic wBasic]. apply sp_join; auto. apply sp_join; auto. apply show_cop.
    - destruct (show_side (s2b "?? (FELhs)") l H HB) as (t & Et & HT). unfold shOperand. cbn [tBasic o_bool o_lhs o_check]. rewrite Et. cbn [obind]. eexists. split; [reflexivity|].
      cbn [asBasic wBasic]. apply sp_join; auto. replace (shCheckOp _) with (s2b "IS " ++ (if neg then s2b "NOT " else []) ++ s2b "NULL") by (destruct neg; reflexivity). apply show_is.
    - destruct (show_side (s2b "?? (FELhs)") l H HB) as (t & Et & HT). unfold shOperand. cbn [tBasic o_bool o_lhs o_check]. rewrite Et. cbn [obind]. eexists. split; [reflexivity|].
      cbn [asBasic wBasic]. apply sp_join; auto. replace (shCheckOp _) with (s2b "IS " ++ (if neg then s2b "NOT " else []) ++ s2b "MISSING") by (destruct neg; reflexivity). apply show_is.
  Qed.

  (** ** The whole filter *)
  Definition fine (b : tbasic) : Prop := basicLits b /\ (okb \/ basicPlain b).
  Lemma show_cond : forall c, allCond fine c -> exists t, shCondition x (tCond c) = Ok t /\ sp (wCond ft (asCond c)) t.
  Proof.
    induction c as [c IH|b]; intro H; cbn [allCond] in H.
    - destruct (IH H) as (t & Et & HT). cbn [tCond shCondition]. rewrite Et. cbn [obind]. eexists. split; [reflexivity|]. cbn [asCond wCond].
      apply (sp_join [word "NOT"] (s2b "NOT")); auto. apply (sp_t (word "NOT")).
    - cbn [tCond shCondition asCond wCond]. destruct H. now apply show_basic.
  Qed.
  Lemma show_list : forall A B (sh : B -> outcome bytes) (t : A -> B) (w : A -> list token) w0 l a,
    (exists s, sh (t a) = Ok s /\ sp (w a) s) -> Forall (fun a => exists s, sh (t a) = Ok s /\ sp (w a) s) l ->
    exists ss, showAll sh (t a :: map t l) = Ok ss /\ sp (w a ++ (fix go l := match l with [] => [] | c :: r => word w0 :: w c ++ go r end) l) (joined (s2b " " ++ s2b w0 ++ s2b " ") ss).
  Proof.
    intros A B sh t w w0. induction l as [|b l IH]; intros a (s & Es & HS) H.
    - exists [s]. cbn [map showAll joined]. rewrite Es. cbn [obind]. now rewrite app_nil_r.
    - inversion H as [|? ? Hb Hl]; subst. destruct (IH b Hb Hl) as (ss & ESS & HSS). exists (s :: ss). cbn [map showAll] in ESS |- *. rewrite Es. cbn [obind]. rewrite ESS. cbn [obind]. split; auto.
      destruct ss as [|u ss]; [exfalso; destruct (sh (t b)); try discriminate; cbn [obind] in ESS; match type of ESS with obind ?X _ = _ => destruct X end; discriminate|].
      set (sep := s2b " " ++ s2b w0 ++ s2b " ") in *. change (joined sep (s :: u :: ss)) with (s ++ sep ++ joined sep (u :: ss)). unfold sep at 1. rewrite <- !app_assoc.
      apply sp_join; auto. apply (sp_join [word w0] (s2b w0)); auto. apply (sp_t (word w0)).
  Qed.
  Lemma all_list : forall A (Q : A -> Prop) (R : A -> Prop) l, Forall (fun a => Q a -> R a) l -> (fix go l := match l with [] => True | c :: r => Q c /\ go r end) l -> Forall R l.
  Proof. intros A Q R l H. induction H as [|a l Ha H IH]; [constructor|]. intros [H1 H2]. constructor; auto. Qed.
  Theorem show_filter : forall f, allBasic fine f -> exists s, shInner x (tFilter f) = Ok s /\ sp (wFilter ft (asShown f)) s.
  Proof.
    apply (filter_ind' (fun f => allBasic fine f -> exists s, shInner x (tFilter f) = Ok s /\ sp (wFilter ft (asShown f)) s)
      (fun c => allConj fine c -> exists s, shInnerAnd x (tConj c) = Ok s /\ sp (wConj ft (asConj c)) s)
      (fun t => allTerm fine t -> exists s, shSub x (tTerm t) = Ok s /\ sp (wTerm ft (asTerm t)) s)).
    - intros a l IHa IHl [Ha Hl]. pose proof (all_list _ _ _ _ IHl Hl) as HL.
      destruct (show_list _ _ (shInnerAnd x) tConj (fun c => wConj ft (asConj c)) "OR" l a (IHa Ha) HL) as (ss & Es & HS).
      exists (joined (s2b " OR ") ss). split.
      + change (shInner x (tFilter (FOr a l))) with (do ss <- showAll (shInnerAnd x) (tConj a :: map tConj l); Ok (joined (s2b " OR ") ss)). now rewrite Es.
      + cbn [asShown]. change (wFilter ft (FOr (asConj a) (map asConj l))) with (wConj ft (asConj a) ++ (fix go l := match l with [] => [] | c :: r => word "OR" :: wConj ft c ++ go r end) (map asConj l)).
        replace ((fix go l := match l with [] => [] | c :: r => word "OR" :: wConj ft c ++ go r end) (map asConj l)) with ((fix go l := match l with [] => [] | c :: r => word "OR" :: wConj ft (asConj c) ++ go r end) l); [exact HS|].
        clear. induction l as [|c l IH]; [reflexivity|]. cbn [map]. now rewrite IH.
    - intros a l IHa IHl [Ha Hl]. pose proof (all_list _ _ _ _ IHl Hl) as HL.
      destruct (show_list _ _ (shSub x) tTerm (fun c => wTerm ft (asTerm c)) "AND" l a (IHa Ha) HL) as (ss & Es & HS).
      exists (joined (s2b " AND ") ss). split.
      + change (shInnerAnd x (tConj (FAnd a l))) with (do ss <- showAll (shSub x) (tTerm a :: map tTerm l); Ok (joined (s2b " AND ") ss)). now rewrite Es.
      + cbn [asConj]. change (wConj ft (FAnd (asTerm a) (map asTerm l))) with (wTerm ft (asTerm a) ++ (fix go l := match l with [] => [] | c :: r => word "AND" :: wTerm ft c ++ go r end) (map asTerm l)).
        replace ((fix go l := match l with [] => [] | c :: r => word "AND" :: wTerm ft c ++ go r end) (map asTerm l)) with ((fix go l := match l with [] => [] | c :: r => word "AND" :: wTerm ft (asTerm c) ++ go r end) l); [exact HS|].
        clear. induction l as [|c l IH]; [reflexivity|]. cbn [map]. now rewrite IH.
    - intros f IH H. destruct (IH H) as (s & Es & HS). cbn [tTerm].
      change (shSub x (FeSubOrTerm (Some (tFilter f)) None)) with (do t <- shInner x (tFilter f); Ok (s2b "(" ++ s2b " " ++ t ++ s2b " " ++ s2b ")")). rewrite Es. cbn [obind].
      eexists. split; [reflexivity|]. cbn [asTerm]. change (wTerm ft (TParen (asShown f))) with (sym "(" :: wFilter ft (asShown f) ++ [sym ")"]). now apply sp_paren.
    - intros c H. now apply show_cond.
  Qed.
End Show.

(** ** The meaning of what is shown *)
Section Meaning.
  Variable o : oracles.
  Variable x : textEnv.
  Variable doc : cst.
  Lemma as_numVal : forall n, numVal (asNum n) = numVal n.
  Proof. intros [[] z|[] f]; reflexivity. Qed.
  Lemma as_valueVal : forall v, valueVal (asValue v) = valueVal v.
  Proof. intros [n|s]; [apply as_numVal|reflexivity]. Qed.
  Lemma as_math : forall m, mathWhole m -> fmathVal o doc (asMath m) = fmathVal o doc m /\ fmathFields (asMath m) = fmathFields m.
  Proof. intros [f|n p f|f p n|f p g] H; cbn [mathWhole] in H; try destruct H; cbn [asMath fmathVal fmathFields]; rewrite ?as_numVal; auto. Qed.
  Lemma as_call_arg : (forall c, callWhole c -> callVal o doc (asCall c) = callVal o doc c /\ callFields (asCall c) = callFields c)
    /\ (forall a, argWhole a -> argVal o doc (asArg a) = argVal o doc a /\ argFields (asArg a) = argFields a).
  Proof.
    apply call_arg_ind; try (intros; split; reflexivity).
    - intros neg f a IH H. destruct (IH H) as [E1 E2]. split; [|exact E2]. change (negated o neg (do x <- argVal o doc (asArg a); fun1 f o x) = negated o neg (do x <- argVal o doc a; fun1 f o x)). now rewrite E1.
    - intros neg a IHa b IHb [Ha Hb]. destruct (IHa Ha) as [E1 E2], (IHb Hb) as [E3 E4]. split; [|change (argFields (asArg a) ++ argFields (asArg b) = argFields a ++ argFields b); congruence].
      change (negated o neg (do x <- argVal o doc (asArg a); do y <- argVal o doc (asArg b); mathFun2 o FAtan2 x y) = negated o neg (do x <- argVal o doc a; do y <- argVal o doc b; mathFun2 o FAtan2 x y)). now rewrite E1, E3.
    - intros neg a IHa b IHb [Ha Hb]. destruct (IHa Ha) as [E1 E2], (IHb Hb) as [E3 E4]. split; [|change (argFields (asArg a) ++ argFields (asArg b) = argFields a ++ argFields b); congruence].
      change (negated o neg (do x <- argVal o doc (asArg a); do y <- argVal o doc (asArg b); mathFun2 o FPow x y) = negated o neg (do x <- argVal o doc a; do y <- argVal o doc b; mathFun2 o FPow x y)). now rewrite E1, E3.
    - intros c IH H. now apply IH.
    - intros m H. now apply as_math.
    - intros v H. cbn [asArg argVal argFields]. now rewrite as_valueVal.
  Qed.
  Lemma as_side : forall s, sideWhole s -> sideVal o doc (asSide s) = sideVal o doc s /\ sideFields (asSide s) = sideFields s.
  Proof. intros [c|u b|m|v] H; [now apply as_call_arg|auto|now apply as_math|cbn [asSide sideVal sideFields]; now rewrite as_valueVal]. Qed.
  Lemma as_valueText : forall v, valueText x (asValue v) = valueText x v.
  Proof. intros [n|s]; [cbn [asValue valueText]; now rewrite as_numVal|reflexivity]. Qed.
  Lemma as_basic : forall b, basicWhole b -> means1 o x doc (asBasic b) = means1 o x doc b.
  Proof.
    intros [u c|a p|a c|f|l p r|neg l|neg l] H; cbn [asBasic means1]; auto; cbn [basicWhole] in H.
    - destruct (proj2 as_call_arg a H) as [E1 E2]. unfold pattern. now rewrite E1, E2, as_valueText.
    - destruct H as [HL HR]. destruct (as_side l HL) as [E1 E2], (as_side r HR) as [E3 E4]. rewrite E1, E2, E3, E4. destruct p; reflexivity.
    - destruct (as_side l H) as [E1 E2]. now rewrite E1, E2.
    - destruct (as_side l H) as [_ E2]. now rewrite E2.
  Qed.
  Lemma as_cond : forall c, allCond basicWhole c -> meansCond o x doc (asCond c) = meansCond o x doc c.
  Proof. induction c as [c IH|b]; intro H; cbn [asCond meansCond allCond] in *; [now rewrite IH|now apply as_basic]. Qed.
  Theorem as_means : forall f, allBasic basicWhole f -> means o x doc (asShown f) = means o x doc f.
  Proof.
    apply (filter_ind' (fun f => allBasic basicWhole f -> means o x doc (asShown f) = means o x doc f)
      (fun c => allConj basicWhole c -> meansConj o x doc (asConj c) = meansConj o x doc c)
      (fun t => allTerm basicWhole t -> meansTerm o x doc (asTerm t) = meansTerm o x doc t)).
    - intros a l IHa IHl [Ha Hl]. pose proof (all_list _ _ _ _ IHl Hl) as HL. cbn [asShown].
      change (meansConj o x doc (asConj a) || existsb (meansConj o x doc) (map asConj l) = meansConj o x doc a || existsb (meansConj o x doc) l). rewrite (IHa Ha). f_equal.
      clear - HL. induction HL as [|c l Hc HL IH]; [reflexivity|]. cbn [map existsb]. now rewrite Hc, IH.
    - intros a l IHa IHl [Ha Hl]. pose proof (all_list _ _ _ _ IHl Hl) as HL. cbn [asConj].
      change (meansTerm o x doc (asTerm a) && forallb (meansTerm o x doc) (map asTerm l) = meansTerm o x doc a && forallb (meansTerm o x doc) l). rewrite (IHa Ha). f_equal.
      clear - HL. induction HL as [|c l Hc HL IH]; [reflexivity|]. cbn [map forallb]. now rewrite Hc, IH.
    - intros f IH H. exact (IH H).
    - intros c H. now apply as_cond.
  Qed.
End Meaning.

(** ** No tree of the grammar fails to be shown *)
Section Lib.
  Variable L : lib.
  Variable intOf : bytes -> option Z.
  Variable floatOf : bytes -> option float.
  Variable x : textEnv.
  Definition told {A : Type} (e : outcome A) : Prop := exists s, e = Ok s.
  Lemma told_bind : forall A B (e : outcome A) (k : A -> outcome B), told e -> (forall a, told (k a)) -> told (obind e k).
  Proof. intros A B e k [a ->] H. apply H. Qed.
  Lemma told_ok : forall A (a : A), told (Ok a).
  Proof. intros. now exists a. Qed.
  Lemma told_all : forall A (f : A -> outcome bytes) l, Forall (fun a => told (f a)) l -> told (showAll f l).
  Proof. intros A f l H. induction H as [|a l Ha H IH]; [apply told_ok|]. cbn [showAll]. apply told_bind; auto. intro. apply told_bind; auto. intro. apply told_ok. Qed.
  Lemma w_path : gives (fun p => told (shOnePath p)) (pOnePath L).
  Proof. unfold pOnePath. eapply gives_then; [apply gives_any|]. intros [f|s] _; (eapply gives_then; [apply gives_any|]; intros l _); apply gives_ret; apply told_ok. Qed.
  Lemma w_field : gives (fun f => told (shField f)) (pField L).
  Proof.
    unfold pField. eapply gives_then; [apply gives_any|]. intros neg _. eapply gives_then; [apply w_path|]. intros a Ha.
    eapply gives_then; [apply gives_rep; eapply gives_then; [apply gives_any|intros; apply w_path]|]. intros l Hl. apply gives_ret.
    unfold shField. cbn [f_path]. apply told_bind; [|intros; apply told_ok]. apply told_all. constructor; auto.
  Qed.
  Lemma w_math : gives (fun f => told (shFieldWithMath x f)) (pFieldWithMath L intOf floatOf).
  Proof.
    unfold pFieldWithMath. apply gives_alt. constructor; [|constructor; [|constructor; [|constructor]]].
    - eapply gives_map with (Q := fun t => told (shType0 x t)); [|auto]. unfold pType0. eapply gives_then; [apply gives_any|intros v _]. eapply gives_then; [apply gives_any|intros p _].
      eapply gives_then; [apply w_field|intros f Hf]. apply gives_ret. cbn. apply told_bind; auto. intros. apply told_ok.
    - eapply gives_map with (Q := fun t => told (shType1 x t)); [|auto]. unfold pType1. eapply gives_then; [apply w_field|intros f Hf].
      eapply gives_then; [apply gives_any|]. intros l _. apply gives_ret. unfold shType1. cbn [t1_field t1_op t1_value t1_other].
      apply told_bind; [apply told_bind; auto; intros; apply told_ok|]. intro. apply told_bind; [|intros; apply told_ok].
      destruct l as [|q l]; [apply told_ok|]. destruct (lastOf (lefts (map snd (q :: l)))); [|apply told_ok].
      destruct (lastOf (map fst (q :: l))) eqn:E; [apply told_ok|]. exfalso. revert q E. clear. induction l as [|r l IH]; intros q E; [discriminate|]. apply (IH r). exact E.
    - eapply gives_map; [apply gives_any|]. intros; apply told_ok.
  Qed.
  Lemma w_argument : forall sub, gives (fun f => told (shConstFunc x f)) sub -> gives (fun a => told (shArgument x a)) (pArgument L intOf floatOf sub).
  Proof.
    intros sub H. unfold pArgument. apply gives_alt. constructor; [eapply gives_map; [exact H|auto]|]. constructor; [eapply gives_map; [exact w_math|auto]|].
    constructor; [|constructor]. eapply gives_map; [apply gives_any|]. intros v _. apply told_ok.
  Qed.
  Lemma w_call : forall n, gives (fun f => told (shConstFunc x f)) (pConstFunc L intOf floatOf n).
  Proof.
    induction n as [|n IH]; [intros ts a r E; discriminate|]. cbn [pConstFunc]. unfold pConstFunc1. eapply gives_then; [apply gives_any|intros neg _].
    apply gives_alt. constructor; [|constructor; [|constructor; [|constructor]]].
    - eapply gives_map; [apply gives_any|]. intros a _. apply told_ok.
    - eapply gives_map with (Q := fun a => told (shOneArg x a)); [|intros a Ha; cbn; apply told_bind; auto; intros; apply told_ok].
      unfold pOneArg. eapply gives_then; [apply gives_any|intros nm _]. eapply gives_then; [apply gives_any|intros _ _]. eapply gives_then; [apply w_argument, IH|intros a Ha].
      eapply gives_then; [apply gives_any|intros _ _]. apply gives_ret. cbn [shOneArg]. apply told_bind; auto. intros. apply told_ok.
    - eapply gives_map with (Q := fun a => told (shTwoArgs x a)); [|intros a Ha; cbn; apply told_bind; auto; intros; apply told_ok].
      unfold pTwoArgs. eapply gives_then; [apply gives_any|intros nm _]. eapply gives_then; [apply gives_any|intros _ _]. eapply gives_then; [apply w_argument, IH|intros a Ha].
      eapply gives_then; [apply gives_any|intros _ _]. eapply gives_then; [apply w_argument, IH|intros b Hb]. eapply gives_then; [apply gives_any|intros _ _].
      apply gives_ret. cbn [shTwoArgs]. apply told_bind; auto. intros. apply told_bind; auto. intros. apply told_ok.
  Qed.
  Lemma w_argRHS : forall n, gives (fun a => told (shArgumentRHS x a)) (pArgumentRHS L intOf floatOf n).
  Proof.
    intro n. unfold pArgumentRHS. apply gives_alt. constructor; [eapply gives_map; [apply w_call|auto]|]. constructor; [|constructor].
    eapply gives_map; [apply gives_any|]. intros v _. apply told_ok.
  Qed.
  Lemma w_booleanExpr : forall n, gives (fun b => told (shBooleanExpr x b)) (pBooleanExpr L intOf floatOf n).
  Proof.
    intro n. unfold pBooleanExpr. apply gives_alt. constructor; [eapply gives_map; [apply gives_any|intros; apply told_ok]|]. constructor; [|constructor].
    eapply gives_map with (Q := fun b => told (shBooleanFunc x b)); [|auto]. unfold pBooleanFunc. apply gives_alt. constructor; [|constructor; [|constructor]].
    - eapply gives_map with (Q := fun b => told (shBoolTwoArgs x b)); [|auto]. unfold pBoolTwoArgs. eapply gives_then; [apply gives_any|intros nm _]. eapply gives_then; [apply gives_any|intros _ _].
      eapply gives_then; [apply w_argument, w_call|intros a Ha]. eapply gives_then; [apply gives_any|intros _ _]. eapply gives_then; [apply w_argRHS|intros b Hb].
      eapply gives_then; [apply gives_any|intros _ _]. apply gives_ret. cbn. apply told_bind; auto. intros. apply told_bind; auto. intros. apply told_ok.
    - eapply gives_map with (Q := fun b => told (shExists b)); [|auto]. unfold pExists. do 2 (eapply gives_then; [apply gives_any|intros _ _]). eapply gives_then; [apply w_field|intros f Hf].
      eapply gives_then; [apply gives_any|intros _ _]. apply gives_ret. cbn. apply told_bind; auto. intros. apply told_ok.
  Qed.
  Definition sideTold (s : feSide) : Prop := forall d, told (shSide x d s).
  Lemma w_sdFunc : forall n, gives sideTold (sdFunc L intOf floatOf n).
  Proof. intro. eapply gives_map; [apply w_call|]. intros a H d. exact H. Qed.
  Lemma w_sdBool : gives sideTold (sdBool L).
  Proof. eapply gives_map; [apply gives_any|]. intros a _ d. apply told_ok. Qed.
  Lemma w_sdField : gives sideTold (sdField L intOf floatOf).
  Proof. eapply gives_map; [apply w_math|]. intros a H d. exact H. Qed.
  Lemma w_sdValue : gives sideTold (sdValue L intOf floatOf).
  Proof. eapply gives_map; [apply gives_any|]. intros a _ d. apply told_ok. Qed.
  Lemma w_operand : forall n, gives (fun p => told (shOperand x p)) (pOperand L intOf floatOf n).
  Proof.
    intro n. unfold pOperand. apply gives_alt. constructor; [eapply gives_map; [apply w_booleanExpr|auto]|]. constructor; [|constructor].
    eapply gives_then; [unfold pLhs; apply gives_alt; repeat (apply Forall_cons; [first [apply w_sdFunc|apply w_sdBool|apply w_sdField|apply w_sdValue]|]); apply Forall_nil|]. intros l Hl.
    apply gives_alt. constructor; [|constructor; [|constructor]].
    - eapply gives_then; [apply gives_any|intros p _].
      eapply gives_then; [unfold pRhs; apply gives_alt; repeat (apply Forall_cons; [first [apply w_sdFunc|apply w_sdBool|apply w_sdField|apply w_sdValue]|]); apply Forall_nil|]. intros r Hr.
      apply gives_ret. cbn. apply told_bind; [apply Hl|intros]. apply told_bind; [apply Hr|intros]. apply told_ok.
    - eapply gives_map; [apply gives_any|]. intros c _. cbn. apply told_bind; [apply Hl|intros]. apply told_ok.
  Qed.
  Lemma w_condition : forall n, gives (fun c => told (shCondition x c)) (pCondition L intOf floatOf n).
  Proof.
    induction n as [|n IH]; [intros ts a r E; discriminate|]. cbn [pCondition]. apply gives_alt. constructor; [|constructor; [|constructor]].
    - eapply gives_then; [apply gives_any|intros _ _]. eapply gives_map; [exact IH|]. intros c Hc. cbn [shCondition]. apply told_bind; auto. intros; apply told_ok.
    - eapply gives_map; [apply w_operand|auto].
  Qed.
  Lemma w_inner : forall n, gives (fun i => told (shInner x i)) (pInner L intOf floatOf n).
  Proof.
    induction n as [|n IH]; [intros ts a r E; discriminate|]. cbn [pInner].
    assert (gives (fun i => told (shSub x i)) (pSub L intOf floatOf (S n) (pInner L intOf floatOf n))) as Hsub.
    { unfold pSub. apply gives_alt. constructor; [|constructor; [|constructor]].
      - eapply gives_then; [apply gives_any|intros _ _]. eapply gives_then; [exact IH|intros i Hi]. eapply gives_then; [apply gives_any|intros _ _]. apply gives_ret.
        change (told (do t <- shInner x i; Ok (s2b "(" ++ s2b " " ++ t ++ s2b " " ++ s2b ")"))). apply told_bind; auto. intros. apply told_ok.
      - eapply gives_map; [apply w_condition|auto]. }
    assert (gives (fun i => told (shInnerAnd x i)) (pInnerAnd L intOf floatOf (S n) (pInner L intOf floatOf n))) as Hand.
    { unfold pInnerAnd. eapply gives_then; [exact Hsub|intros a Ha]. eapply gives_then; [apply gives_rep; eapply gives_then; [apply gives_any|intros _ _; exact Hsub]|intros l Hl].
      apply gives_ret. change (told (do ss <- showAll (shSub x) (a :: l); Ok (joined (s2b " AND ") ss))). apply told_bind; [|intros; apply told_ok]. apply told_all. constructor; auto. }
    eapply gives_then; [exact Hand|intros a Ha]. eapply gives_then; [apply gives_rep; eapply gives_then; [apply gives_any|intros _ _; exact Hand]|intros l Hl].
    apply gives_ret. change (told (do ss <- showAll (shInnerAnd x) (a :: l); Ok (joined (s2b " OR ") ss))). apply told_bind; [|intros; apply told_ok]. apply told_all. constructor; auto.
  Qed.
  Theorem parse_told : forall ts t, parseTokens L intOf floatOf ts = Ok t -> told (filterString x t).
  Proof.
    intros ts t E. unfold parseTokens in E. destruct (pInner L intOf floatOf (S (length ts)) ts) as [|r|i [|? ?]|] eqn:X; inversion E; subst. exact (w_inner _ _ _ _ X).
  Qed.
End Lib.

(** ** Showing again *)
Section Again.
  Variable x : textEnv.
  Lemma again_num : forall n, numOk n -> strMathValue x (tNum (asNum n)) = strMathValue x (tNum n).
  Proof. intros n H. unfold strMathValue. rewrite (out_num _ H). destruct n as [[] z|[] f]; reflexivity. Qed.
  Lemma again_value : forall v, valueOk v -> strValue x (tValue (asValue v)) = strValue x (tValue v).
  Proof. intros [n|s] H; [now apply again_num|reflexivity]. Qed.
  Lemma again_math : forall m, fmathOk m -> shFieldWithMath x (tFmath (asMath m)) = shFieldWithMath x (tFmath m).
  Proof.
    intros [f|n p f|f p n|f p g] H; cbn [fmathOk] in H; try reflexivity; unfold shFieldWithMath; cbn [asMath tFmath fm_type0 fm_type1].
    - unfold shType0. cbn [t0_value t0_op t0_field]. now rewrite again_num.
    - unfold shType1. cbn [t1_field t1_op t1_value t1_other]. now rewrite again_num.
  Qed.
  Lemma again_call_arg : (forall c, callLits c -> shConstFunc x (tCall (asCall c)) = shConstFunc x (tCall c))
    /\ (forall a, argLits a -> shArgument x (tArg (asArg a)) = shArgument x (tArg a)).
  Proof.
    apply call_arg_ind; try reflexivity.
    - intros neg f a IH H. change (callLits (COne neg f a)) with (argLits a) in H.
      change (asCall (COne neg f a)) with (COne neg f (asArg a)).
      enough (forall b, shConstFunc x (tCall (COne neg f b)) = (do s <- (do s <- shArgument x (tArg b); Ok (shName1 (tName1 f) ++ s2b "( " ++ s ++ s2b " )")); Ok ((if isTrue (flag neg) then s2b "-" else []) ++ s))) as X by (rewrite !X, IH; auto).
      reflexivity.
    - intros neg a IHa b IHb [Ha Hb]. change (asCall (CAtan2 neg a b)) with (CAtan2 neg (asArg a) (asArg b)).
      enough (forall a b, shConstFunc x (tCall (CAtan2 neg a b)) = (do s <- (do s <- shArgument x (tArg a); do t <- shArgument x (tArg b); Ok (s2b "ATAN2" ++ s2b "( " ++ s ++ s2b " , " ++ t ++ s2b " )")); Ok ((if isTrue (flag neg) then s2b "-" else []) ++ s))) as X by (rewrite !X, IHa, IHb; auto).
      reflexivity.
    - intros neg a IHa b IHb [Ha Hb]. change (asCall (CPow neg a b)) with (CPow neg (asArg a) (asArg b)).
      enough (forall a b, shConstFunc x (tCall (CPow neg a b)) = (do s <- (do s <- shArgument x (tArg a); do t <- shArgument x (tArg b); Ok (s2b "POW" ++ s2b "( " ++ s ++ s2b " , " ++ t ++ s2b " )")); Ok ((if isTrue (flag neg) then s2b "-" else []) ++ s))) as X by (rewrite !X, IHa, IHb; auto).
      reflexivity.
    - intros c IH H. exact (IH H).
    - intros m H. exact (again_math m H).
    - intros v H. change (Ok (strValue x (tValue (asValue v))) = Ok (strValue x (tValue v))). now rewrite again_value.
  Qed.
  Lemma again_side : forall d s, sideLits s -> shSide x d (tSide (asSide s)) = shSide x d (tSide s).
  Proof.
    intros d [c|u b|m|v] H; [exact (proj1 again_call_arg c H)|reflexivity|exact (again_math m H)|].
    change (Ok (strValue x (tValue (asValue v))) = Ok (strValue x (tValue v))). now rewrite again_value.
  Qed.
  Lemma again_basic : forall b, basicLits b -> shOperand x (tBasic (asBasic b)) = shOperand x (tBasic b).
  Proof.
    intros [u c|a p|a c|f|l p r|neg l|neg l] H; try reflexivity; cbn [basicLits] in H.
    - destruct H as [HA HP].
      enough (forall a p, shOperand x (tBasic (BRegex a p)) = (do s <- shArgument x (tArg a); do t <- Ok (strValue x (tValue p)); Ok (s2b "REGEXP_CONTAINS" ++ s2b "( " ++ s ++ s2b " , " ++ t ++ s2b " )"))) as X
        by (cbn [asBasic]; rewrite !X, (proj2 again_call_arg), again_value; auto). reflexivity.
    - destruct H as [HA HP].
      enough (forall a p, shOperand x (tBasic (BRegexCall a p)) = (do s <- shArgument x (tArg a); do t <- shConstFunc x (tCall p); Ok (s2b "REGEXP_CONTAINS" ++ s2b "( " ++ s ++ s2b " , " ++ t ++ s2b " )"))) as X
        by (cbn [asBasic]; rewrite !X, (proj2 again_call_arg), (proj1 again_call_arg); auto). reflexivity.
    - destruct H as [HL HR]. cbn [asBasic]. unfold shOperand. cbn [tBasic o_bool o_lhs o_check o_op o_rhs]. rewrite !again_side by auto. destruct p as [[]|[]| | | |]; reflexivity.
    - cbn [asBasic]. unfold shOperand. cbn [tBasic o_bool o_lhs o_check]. now rewrite again_side.
    - cbn [asBasic]. unfold shOperand. cbn [tBasic o_bool o_lhs o_check]. now rewrite again_side.
  Qed.
  Lemma again_cond : forall c, allCond basicLits c -> shCondition x (tCond (asCond c)) = shCondition x (tCond c).
  Proof. induction c as [c IH|b]; intro H; cbn [asCond tCond shCondition allCond] in *; [now rewrite IH|now apply again_basic]. Qed.
  Lemma again_list : forall A B (f : B -> outcome bytes) (t : A -> B) (g : A -> A) l, Forall (fun a => f (t (g a)) = f (t a)) l -> showAll f (map t (map g l)) = showAll f (map t l).
  Proof. intros A B f t g l H. induction H as [|a l Ha H IH]; [reflexivity|]. cbn [map showAll]. now rewrite Ha, IH. Qed.
  Theorem again : forall f, allBasic basicLits f -> shInner x (tFilter (asShown f)) = shInner x (tFilter f).
  Proof.
    apply (filter_ind' (fun f => allBasic basicLits f -> shInner x (tFilter (asShown f)) = shInner x (tFilter f))
      (fun c => allConj basicLits c -> shInnerAnd x (tConj (asConj c)) = shInnerAnd x (tConj c))
      (fun t => allTerm basicLits t -> shSub x (tTerm (asTerm t)) = shSub x (tTerm t))).
    - intros a l IHa IHl [Ha Hl]. pose proof (all_list _ _ _ _ IHl Hl) as HL.
      enough (forall a l, shInner x (tFilter (FOr a l)) = (do ss <- showAll (shInnerAnd x) (map tConj (a :: l)); Ok (joined (s2b " OR ") ss))) as X; [|reflexivity].
      change (asShown (FOr a l)) with (FOr (asConj a) (map asConj l)). rewrite !X. change (asConj a :: map asConj l) with (map asConj (a :: l)). rewrite again_list; auto.
    - intros a l IHa IHl [Ha Hl]. pose proof (all_list _ _ _ _ IHl Hl) as HL.
      enough (forall a l, shInnerAnd x (tConj (FAnd a l)) = (do ss <- showAll (shSub x) (map tTerm (a :: l)); Ok (joined (s2b " AND ") ss))) as X; [|reflexivity].
      change (asConj (FAnd a l)) with (FAnd (asTerm a) (map asTerm l)). rewrite !X. change (asTerm a :: map asTerm l) with (map asTerm (a :: l)). rewrite again_list; auto.
    - intros f IH H. enough (forall f, shSub x (tTerm (TParen f)) = (do t <- shInner x (tFilter f); Ok (s2b "(" ++ s2b " " ++ t ++ s2b " " ++ s2b ")"))) as X; [|reflexivity].
      change (asTerm (TParen f)) with (TParen (asShown f)). rewrite !X. now rewrite (IH H).
    - intros c H. now apply again_cond.
  Qed.
End Again.

Lemma all_both : forall (Q R S : tbasic -> Prop), (forall b, Q b -> R b -> S b) -> forall f, allBasic Q f -> allBasic R f -> allBasic S f.
Proof.
  intros Q R S HQ. apply (filter_ind' (fun f => allBasic Q f -> allBasic R f -> allBasic S f) (fun c => allConj Q c -> allConj R c -> allConj S c) (fun t => allTerm Q t -> allTerm R t -> allTerm S t)).
  - intros a l IHa IHl [Ha Hl] [Pa Pl]. split; [exact (IHa Ha Pa)|]. clear - IHl Hl Pl. induction IHl as [|c l Hc IHl IH]; [exact I|]. destruct Hl as [H1 H2], Pl as [P1 P2]. split; [exact (Hc H1 P1)|exact (IH H2 P2)].
  - intros a l IHa IHl [Ha Hl] [Pa Pl]. split; [exact (IHa Ha Pa)|]. clear - IHl Hl Pl. induction IHl as [|c l Hc IHl IH]; [exact I|]. destruct Hl as [H1 H2], Pl as [P1 P2]. split; [exact (Hc H1 P1)|exact (IH H2 P2)].
  - intros f IH H HP. exact (IH H HP).
  - intro c. change (allCond Q c -> allCond R c -> allCond S c). induction c as [c IH|b]; intros H HP; [exact (IH H HP)|exact (HQ b H HP)].
Qed.
