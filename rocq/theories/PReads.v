(** Whatever the grammar of text filters accepts is a text of the filter it is read as. *)
From Coq Require Import String.
From Verif Require Import Base MTokenizer MLit MFastVal MMath SEvents MExpr MExprJson MTransform MMatcher MText SText MGrammar SGrammar PGrammarSafe SReads.
From Coq Require Import List NArith ZArith Arith Lia Bool.
Import ListNotations.
Open Scope string_scope.
Open Scope list_scope.
Open Scope nat_scope.

(** A match of [p] uses up tokens that are related to its result. *)
Definition used {A : Type} (p : parser A) (R : A -> list token -> Prop) : Prop :=
  forall ts a r, p ts = POk a r -> exists u, ts = u ++ r /\ R a u.
Lemma u_map : forall A B (f : A -> B) p R (R' : B -> list token -> Prop), used p R -> (forall a u, R a u -> R' (f a) u) -> used (pmap f p) R'.
Proof. intros A B f p R R' H HR ts a r E. unfold pmap in E. destruct (p ts) eqn:X; inversion E; subst. destruct (H _ _ _ X) as (u & -> & Hu). eauto. Qed.
Lemma u_then : forall A B (p : parser A) (k : A -> parser B) R K (R' : B -> list token -> Prop), used p R -> (forall a, used (k a) (K a)) ->
  (forall a b u v, R a u -> K a b v -> R' b (u ++ v)) -> used (pthen p k) R'.
Proof.
  intros A B p k R K R' H HK HR ts b r E. unfold pthen in E. destruct (p ts) as [|?|a r1|] eqn:X; try discriminate.
  destruct (k a r1) eqn:Y; inversion E; subst. destruct (H _ _ _ X) as (u & -> & Hu). destruct (HK _ _ _ _ Y) as (v & -> & Hv). exists (u ++ v). rewrite app_assoc. eauto.
Qed.
Lemma u_ret : forall A (a : A) (R : A -> list token -> Prop), R a [] -> used (pret a) R.
Proof. intros A a R H ts b r E. inversion E; subst. exists []. auto. Qed.
Lemma u_lit : forall s, used (pLit s) (fun _ u => exists t, u = [t] /\ tk_text t = s2b s).
Proof.
  intros s [|t l] a r E; [discriminate|]. unfold pLit in E. destruct (bytes_eqb (tk_text t) (s2b s)) eqn:X; inversion E; subst. apply bytes_eqb_eq in X. exists [t]. eauto.
Qed.
Lemma u_kind : forall k, used (pKind k) (fun b u => u = [Tk k b]).
Proof.
  intros k [|[k' b] l] a r E; [discriminate|]. unfold pKind in E. cbn [tk_kind tk_text] in E. destruct (kind_eqb k' k) eqn:X; inversion E; subst.
  exists [Tk k' a]. split; auto. destruct k', k; (reflexivity || discriminate).
Qed.
Lemma u_flag : forall s, used (pFlag s) (fun b u => b = Some true /\ exists t, u = [t] /\ tk_text t = s2b s).
Proof. intro s. unfold pFlag. eapply u_map; [apply u_lit|]. cbn. auto. Qed.
Lemma u_weak : forall A (p : parser A) R (R' : A -> list token -> Prop), used p R -> (forall a u, R a u -> R' a u) -> used p R'.
Proof. intros A p R R' H HR ts a r E. destruct (H _ _ _ E) as (u & -> & Hu). eauto. Qed.
Lemma u_gives : forall A (p : parser A) R P, used p R -> gives P p -> used p (fun a u => R a u /\ P a).
Proof. intros A p R P H HP ts a r E. destruct (H _ _ _ E) as (u & -> & Hu). exists u. repeat split; auto. eapply HP; eauto. Qed.

Section Lib.
  Variable L : lib.
  Variable intOf : bytes -> option Z.
  Variable floatOf : bytes -> option float.
  Local Notation textOf := (textOf intOf floatOf).
  Local Notation pMathValue := (pMathValue L intOf floatOf).
  Local Notation pValue := (pValue L intOf floatOf).
  Local Notation pFieldWithMath := (pFieldWithMath L intOf floatOf).
  Local Notation pType0 := (pType0 L intOf floatOf).
  Local Notation pType1 := (pType1 L intOf floatOf).
  Local Notation pConstFunc := (pConstFunc L intOf floatOf).
  Local Notation pArgument := (pArgument L intOf floatOf).

  Lemma u_alts : forall A (ps : list (parser A)) R fl, Forall (fun p => used p R) ps -> used (pAlts L fl ps) R.
  Proof.
    intros A ps R. induction ps as [|p ps IH]; intros fl H ts a r E; cbn [pAlts] in E; [destruct (fl && l_keep L); discriminate|].
    inversion H as [|? ? H1 H2]; subst. destruct (p ts) eqn:X; try discriminate; [eapply IH; eauto| |inversion E; subst; eapply H1; eauto].
    destruct (tooFar L ts at_); [discriminate|eapply IH; eauto].
  Qed.
  Lemma u_alt : forall A (ps : list (parser A)) R, Forall (fun p => used p R) ps -> used (pAlt L ps) R.
  Proof. intros. now apply u_alts. Qed.
  Lemma u_opt : forall A (p : parser A) R, used p R -> used (pOpt L p) (fun x u => match x with Some a => R a u | None => u = [] end).
  Proof.
    intros A p R H ts x r E. unfold pOpt in E. destruct (p ts) eqn:X; try (inversion E; subst; eauto; fail). - inversion E; subst. exists []. auto.
    - destruct (tooFar L ts at_); inversion E; subst. exists []. auto.
  Qed.
  Lemma u_rep : forall A (p : parser A) R, used p R -> used (pRep L p) (fun l u => exists vs, Forall2 R l vs /\ u = concat vs).
  Proof.
    intros A p R H ts. unfold pRep. generalize (S (length ts)) as n. intro n. revert ts. induction n as [|n IH]; intros ts l r E; cbn [pReps] in E; [discriminate|].
    destruct (p ts) as [|r'|b r'|] eqn:X; try discriminate.
    - inversion E; subst. exists []. split; auto. exists []. split; [constructor|reflexivity].
    - destruct (tooFar L ts r'); inversion E; subst. exists []. split; auto. exists []. split; [constructor|reflexivity].
    - unfold pmap in E. destruct (pReps L n p r') eqn:Y; inversion E; subst. destruct (H _ _ _ X) as (u & -> & Hu). destruct (IH _ _ _ Y) as (v & -> & vs & Hv & ->).
      exists (u ++ concat vs). split; [now rewrite app_assoc|]. exists (u :: vs). split; [now constructor|reflexivity].
  Qed.

  Lemma text_app : forall q ts q' ts', textOf q ts -> textOf q' ts' -> textOf (q ++ q') (ts ++ ts').
  Proof.
    intros q ts q' ts' H H'. induction H; cbn [app]; try (constructor; auto; fail); auto.
    - rewrite <- app_assoc. now constructor.
    - rewrite <- app_assoc. econstructor; eauto.
  Qed.
  Lemma text_word : forall b t, tk_text t = b -> textOf [PWord b] [t].
  Proof. intros. constructor; auto. constructor. Qed.
  Lemma text_lit : forall s u, (exists t, u = [t] /\ tk_text t = s2b s) -> textOf [w_ s] u.
  Proof. intros s u (t & -> & H). now apply text_word. Qed.
  Lemma text_cons : forall p q u v, textOf [p] u -> textOf q v -> textOf (p :: q) (u ++ v).
  Proof. intros. change (p :: q) with ([p] ++ q). now apply text_app. Qed.
  Lemma text_flat : forall X (q : X -> list pat) l vs, Forall2 (fun x v => textOf (q x) v) l vs -> textOf (flat_map q l) (concat vs).
  Proof. intros X q l vs H. induction H; cbn [flat_map concat]; [constructor|]. now apply text_app. Qed.
  Lemma choose : forall A X (R : A -> list token -> Prop) (t : X -> A) (q : X -> list token -> Prop) l vs,
    Forall2 R l vs -> (forall a v, R a v -> exists x, a = t x /\ q x v) -> exists xs, l = map t xs /\ Forall2 q xs vs.
  Proof.
    intros A X R t q l vs H HX. induction H as [|a v l vs H1 _ (xs & -> & IH)]; [exists []; split; [reflexivity|constructor]|].
    destruct (HX _ _ H1) as (x & -> & Hx). exists (x :: xs). split; [reflexivity|now constructor].
  Qed.
  (** The same, with what it is read as. *)
  Definition reads {A X : Type} (p : parser A) (t : X -> A) (q : X -> list pat) : Prop := used p (fun a u => exists x, a = t x /\ textOf (q x) u).

  Lemma r_minus : used (pMinus L) (fun n u => exists neg, n = flag neg /\ textOf [PSigns neg] u).
  Proof.
    unfold pMinus. eapply u_map; [apply u_rep, u_lit|]. intros l u (vs & H & ->). exists (negb (match l with [] => true | _ => false end)). split; [destruct l; reflexivity|].
    rewrite <- (app_nil_r (concat vs)). constructor; [| |constructor].
    - clear - H. induction H as [|a v l vs (t & -> & Ht) _ IH]; cbn [concat app]; constructor; auto.
    - inversion H as [|a v l' vs' (t & -> & Ht) _]; subst; cbn; [tauto|]. split; discriminate.
  Qed.
  Lemma r_boolean : used (pBoolean L) (fun a u => exists ub b, a = tBool ub b /\ textOf [t_ (boolWord ub b)] u).
  Proof.
    unfold pBoolean. apply u_alt. repeat apply Forall_cons; try apply Forall_nil; (eapply u_map; [apply u_flag|]; intros a u [-> (t & -> & H)]).
    - exists true, true. split; [reflexivity|now apply text_word].
    - exists false, true. split; [reflexivity|now apply text_word].
    - exists true, false. split; [reflexivity|now apply text_word].
    - exists false, false. split; [reflexivity|now apply text_word].
  Qed.
  Lemma r_num : reads pMathValue tNum qNum.
  Proof.
    unfold reads, MGrammar.pMathValue. eapply u_then; [apply r_minus| |].
    - intro neg. eapply u_then with (R := fun v u => match v with inl b => u = [Tk KInt b] | inr b => u = [Tk KFloat b] end)
        (K := fun v a u => u = [] /\ match v with inl s => exists z, intOf s = Some z /\ a = {| mv_neg := neg; mv_int := Some z; mv_float := None |}
                                     | inr s => exists f, floatOf s = Some f /\ a = {| mv_neg := neg; mv_int := None; mv_float := Some f |} end)
        (R' := fun a u => exists q, textOf [q] u /\ match q with PInt z => a = {| mv_neg := neg; mv_int := Some z; mv_float := None |} | PFloat f => a = {| mv_neg := neg; mv_int := None; mv_float := Some f |} | _ => False end).
      + apply u_alt. repeat apply Forall_cons; try apply Forall_nil; (eapply u_map; [apply u_kind|]; auto).
      + intros [s|s] ts a r E; [destruct (intOf s) eqn:X|destruct (floatOf s) eqn:X]; inversion E; subst; exists []; (split; [reflexivity|split; [reflexivity|eauto]]).
      + intros [s|s] b u v -> [-> (z & Hz & ->)]; [exists (PInt z)|exists (PFloat z)]; (split; [|reflexivity]); constructor; auto; constructor.
    - intros a b u v (neg & -> & H) (q & Hq & Hb). destruct q; try (destruct Hb; fail); subst.
      + exists (NInt neg z). split; [reflexivity|]. now apply text_cons.
      + exists (NFloat neg f). split; [reflexivity|]. now apply text_cons.
  Qed.
  Lemma r_value : reads pValue tValue qValue.
  Proof.
    unfold reads, MGrammar.pValue. apply u_alt. repeat apply Forall_cons; try apply Forall_nil.
    - eapply u_map; [apply r_num|]. intros a u (n & -> & H). now exists (VNum n).
    - eapply u_map; [apply u_kind|]. intros a u ->. exists (VStr a). split; [reflexivity|]. constructor. constructor.
  Qed.
  Lemma r_idx : used pArrayIndex (fun a u => textOf (qIdx a) u).
  Proof.
    unfold pArrayIndex. eapply u_then; [apply u_lit| |].
    - intro z0. eapply u_then with (R' := fun i u => textOf [PTok KInt i; w_ "]"] u); [apply u_kind| |].
      + intro i. eapply u_then with (R' := fun j u => j = i /\ textOf [w_ "]"] u); [apply u_lit|intro; apply u_ret with (R := fun j u => j = i /\ u = []); auto|].
        intros a b u v H [-> ->]. rewrite app_nil_r. split; auto. now apply text_lit.
      + intros a b u v -> [-> H]. apply (text_cons _ _ [_]); auto. constructor. constructor.
    - intros a b u v H1 H2. cbn in *. unfold qIdx. apply text_cons; auto. now apply text_lit.
  Qed.
  Lemma r_pathFunc : used pPathFunc (fun a u => a = {| pf_noarg := Some {| pa_name := Some {| pn_meta := Some true |} |} |} /\ textOf (qName NMeta) u).
  Proof.
    unfold pPathFunc. eapply u_then with (K := fun n a u => a = {| pf_noarg := Some {| pa_name := Some n |} |} /\ textOf [w_ "("; w_ ")"] u);
      [eapply u_map with (R' := fun n u => n = {| pn_meta := Some true |} /\ textOf [w_ "META"] u); [apply u_flag|]| |].
    - intros a u [-> H]. split; auto. now apply text_lit.
    - intro n. eapply u_then with (K := fun _ a u => a = {| pf_noarg := Some {| pa_name := Some n |} |} /\ textOf [w_ ")"] u); [apply u_lit| |].
      + intro z0. eapply u_then with (K := fun _ a u => a = {| pf_noarg := Some {| pa_name := Some n |} |} /\ u = []); [apply u_lit|intro; apply u_ret; auto|].
        intros a b u v H [-> ->]. rewrite app_nil_r. split; auto. now apply text_lit.
      + intros a b u v H [-> H2]. split; auto. apply text_cons; auto. now apply text_lit.
    - intros a b u v [-> H] [-> H2]. split; auto. unfold qName. now apply text_cons.
  Qed.
  Lemma r_string : used (pStringType L) (fun a u => exists n, textOf (qName n) u /\ forall l, {| p_func := None; p_str := Some a; p_idx := l |} = tSeg (Seg n l)).
  Proof.
    unfold pStringType. apply u_alt. repeat apply Forall_cons; try apply Forall_nil; (eapply u_map; [apply u_kind|]); intros a u ->.
    - exists (NChar a). split; [|reflexivity]. constructor. constructor.
    - exists (NRaw a). split; [|reflexivity]. constructor. constructor.
    - exists (NIdent a). split; [|reflexivity]. constructor. constructor.
  Qed.
  Lemma r_path : reads (pOnePath L) tSeg qSeg.
  Proof.
    unfold reads, pOnePath.
    eapply u_then with (R := fun h u => exists n, textOf (qName n) u /\ forall l, (match h with inl f => {| p_func := Some f; p_str := None; p_idx := l |} | inr s => {| p_func := None; p_str := Some s; p_idx := l |} end) = tSeg (Seg n l))
      (K := fun h a u => exists l, a = (match h with inl f => {| p_func := Some f; p_str := None; p_idx := l |} | inr s => {| p_func := None; p_str := Some s; p_idx := l |} end) /\ textOf (flat_map qIdx l) u).
    - apply u_alt. repeat apply Forall_cons; try apply Forall_nil.
      + eapply u_map; [apply r_pathFunc|]. intros a u [-> H]. exists NMeta. split; auto.
      + eapply u_map; [apply r_string|]. intros a u (n & H & HL). exists n. split; auto.
    - intro h. eapply u_then; [apply u_rep, r_idx|intro l; apply u_ret with (R := fun a u => a = (match h with inl f => {| p_func := Some f; p_str := None; p_idx := l |} | inr s => {| p_func := None; p_str := Some s; p_idx := l |} end) /\ u = []); auto|].
      intros l b u v (vs & H & ->) [-> ->]. exists l. split; auto. rewrite app_nil_r. now apply text_flat.
    - intros h b u v (n & H & HL) (l & -> & H2). exists (Seg n l). split; [apply HL|]. unfold qSeg. now apply text_app.
  Qed.
  Lemma r_field : reads (pField L) tField qField.
  Proof.
    unfold reads, pField. eapply u_then with (K := fun neg a u => exists s l, a = {| f_neg := neg; f_path := tSeg s :: map tSeg l |} /\ textOf (qSeg s ++ flat_map (fun s => w_ "." :: qSeg s) l) u); [apply r_minus| |].
    - intro neg. eapply u_then with (K := fun s a u => exists l, a = {| f_neg := neg; f_path := s :: map tSeg l |} /\ textOf (flat_map (fun s => w_ "." :: qSeg s) l) u); [apply r_path| |].
      + intro s. eapply u_then; [apply u_rep; eapply u_then; [apply u_lit|intro; apply r_path|]|intro l; apply u_ret with (R := fun a u => a = {| f_neg := neg; f_path := s :: l |} /\ u = []); auto|].
        * instantiate (1 := fun a u => exists x, a = tSeg x /\ textOf (w_ "." :: qSeg x) u). intros a b u v H (x & -> & Hx). exists x. split; auto. apply text_cons; auto. now apply text_lit.
        * intros l b u v (vs & H & ->) [-> ->]. rewrite app_nil_r. destruct (choose _ _ _ tSeg (fun x => textOf (w_ "." :: qSeg x)) _ _ H ltac:(auto)) as (xs & -> & HX). exists xs. split; auto.
          now apply text_flat.
      + intros a b u v (s & -> & H) (l & -> & H2). exists s, l. split; auto. now apply text_app.
    - intros a b u v (neg & -> & H) (s & l & -> & H2). exists (Field neg s l). split; [reflexivity|]. unfold qField. cbn [fl_neg fl_first fl_rest]. now apply text_cons.
  Qed.
  Lemma r_mathOp : reads (pMathOp L) tAop (fun p => [t_ (aopSym p)]).
  Proof.
    unfold reads, pMathOp. apply u_alt. repeat apply Forall_cons; try apply Forall_nil; (eapply u_map; [apply u_flag|]); intros a u [-> (t & -> & H)].
    - exists Plus. split; [reflexivity|now apply text_word].
    - exists Minus. split; [reflexivity|now apply text_word].
    - exists Times. split; [reflexivity|now apply text_word].
    - exists Over. split; [reflexivity|now apply text_word].
    - exists Modulo. split; [reflexivity|now apply text_word].
  Qed.

  (** ** Fields with arithmetic *)
  Lemma r_type0 : used pType0 (fun a u => exists n p f, a = {| t0_value := Some (tNum n); t0_op := Some (tAop p); t0_field := Some (tField f) |} /\ textOf (qNum n ++ t_ (aopSym p) :: qField f) u).
  Proof.
    unfold MGrammar.pType0. eapply u_then with (K := fun v a u => exists p f, a = {| t0_value := Some v; t0_op := Some (tAop p); t0_field := Some (tField f) |} /\ textOf (t_ (aopSym p) :: qField f) u); [apply r_num| |].
    - intro w. eapply u_then with (K := fun p a u => exists f, a = {| t0_value := Some w; t0_op := Some p; t0_field := Some (tField f) |} /\ textOf (qField f) u); [apply r_mathOp| |].
      + intro p. eapply u_then; [apply r_field|intro f; apply u_ret with (R := fun a u => a = {| t0_value := Some w; t0_op := Some p; t0_field := Some f |} /\ u = []); auto|].
        intros a b u v (f & -> & H) [-> ->]. exists f. split; auto. now rewrite app_nil_r.
      + intros a b u v (p & -> & H) (f & -> & H2). exists p, f. split; auto. now apply text_cons.
    - intros a b u v (n & -> & H) (p & f & -> & H2). exists n, p, f. split; auto. now apply text_app.
  Qed.
  Definition tTail (t : aop * (num + field)) : feMathOp * (feMathValue + feField) := (tAop (fst t), match snd t with inl n => inl (tNum n) | inr f => inr (tField f) end).
  Lemma last_app : forall A (l : list A) a, lastOf (l ++ [a]) = Some a.
  Proof. intros. unfold lastOf. now rewrite fold_left_app. Qed.
  Lemma tail_lefts : forall l, lefts (map snd (map tTail l)) = map tNum (numbers l).
  Proof. induction l as [|[p [n|f]] l IH]; cbn; auto. now rewrite IH. Qed.
  Lemma tail_rights : forall l, rights (map snd (map tTail l)) = map tField (fields l).
  Proof. induction l as [|[p [n|f]] l IH]; cbn; auto. now rewrite IH. Qed.
  Lemma tail_ops : forall l, map fst (map tTail l) = map tAop (map fst l).
  Proof. induction l as [|t l IH]; cbn; auto. now rewrite IH. Qed.
  Lemma last_cases : forall A (l : list A), l = [] \/ exists r a, l = r ++ [a].
  Proof. intros A l. destruct l using rev_ind; eauto. Qed.
  Lemma r_type1 : used pType1 (fun a u => exists m, outType1 a = outFieldWithMath (tFmath m) /\ textOf (qMath m) u).
  Proof.
    unfold MGrammar.pType1.
    eapply u_then with (K := fun f a u => exists l, a = {| t1_field := Some f; t1_op := lastOf (map fst (map tTail l)); t1_value := lastOf (lefts (map snd (map tTail l))); t1_other := lastOf (rights (map snd (map tTail l))) |}
      /\ textOf (flat_map qTerm l) u); [apply r_field| |].
    - intro f. eapply u_then; [apply u_rep with (R := fun a u => exists t, a = tTail t /\ textOf (qTerm t) u)|intro l; apply u_ret with (R := fun a u => a = {| t1_field := Some f; t1_op := lastOf (map fst l); t1_value := lastOf (lefts (map snd l)); t1_other := lastOf (rights (map snd l)) |} /\ u = []); auto|].
      + eapply u_then with (K := fun p a u => exists y, a = (p, match y with inl n => inl (tNum n) | inr f => inr (tField f) end) /\ textOf (match y with inl n => qNum n | inr f => qField f end) u); [apply r_mathOp| |].
        * intro p. eapply u_then with (R := fun x u => exists y, x = (match y with inl n => inl (tNum n) | inr f => inr (tField f) end) /\ textOf (match y with inl n => qNum n | inr f => qField f end) u);
            [|intro x; apply u_ret with (R := fun a u => a = (p, x) /\ u = []); auto|].
          -- apply u_alt. repeat apply Forall_cons; try apply Forall_nil; (eapply u_map; [apply r_num||apply r_field|]).
             ++ intros a u (n & -> & H). now exists (inl n).
             ++ intros a u (g & -> & H). now exists (inr g).
          -- intros x b u v (y & -> & H) [-> ->]. rewrite app_nil_r. eauto.
        * intros a b u v (p & -> & H) (y & -> & H2). exists (p, y). split; [reflexivity|]. unfold qTerm. cbn [fst snd]. apply text_cons; auto.
      + intros l b u v (vs & H & ->) [-> ->]. rewrite app_nil_r. destruct (choose _ _ _ tTail (fun x => textOf (qTerm x)) _ _ H ltac:(auto)) as (xs & -> & HX). exists xs. split; auto. now apply text_flat.
    - intros a b u v (f & -> & H) (l & -> & H2). destruct (last_cases _ l) as [-> |(l0 & [p y] & E)].
      + inversion H2; subst. exists (FPlain f). split; [reflexivity|]. now rewrite app_nil_r.
      + rewrite tail_ops, tail_lefts, tail_rights.
        assert (isLast (map fst l) p) as HP by (exists (map fst l0); subst; now rewrite map_app).
        assert (lastOf (map tAop (map fst l)) = Some (tAop p)) as -> by (destruct HP as [r ->]; rewrite map_app; apply last_app).
        destruct (last_cases _ (numbers l)) as [EN|(ns & n & EN)].
        * assert (isLast (fields l) (match y with inr g => g | inl _ => f end)) as HG.
          { destruct y as [n|g]; [exfalso; subst l; unfold numbers in EN; rewrite flat_map_app in EN; destruct (flat_map _ l0); discriminate|].
            exists (fields l0). subst l. unfold fields. now rewrite flat_map_app. }
          destruct y as [n|g]; [exfalso; subst l; unfold numbers in EN; rewrite flat_map_app in EN; destruct (flat_map _ l0); discriminate|].
          exists (FTwo f p g). rewrite EN. split.
          -- destruct HG as [r ->]. rewrite map_app. cbn [map]. rewrite last_app. reflexivity.
          -- cbn [qMath]. apply text_app; auto. rewrite <- (app_nil_r v). apply f_tail with (l := l); auto; [split; auto|constructor].
        * exists (FNumR f p n). rewrite EN, map_app. cbn [map]. rewrite last_app. split; [reflexivity|].
          cbn [qMath]. apply text_app; auto. rewrite <- (app_nil_r v). apply f_tail with (l := l); auto; [split; [auto|now exists ns]|constructor].
  Qed.
  Lemma reps_far : forall A (p : parser A) n ts r, pReps L n p ts = PFail r -> (forall ts a r, p ts = POk a r -> length r <= length ts) -> l_look L < length ts - length r.
  Proof.
    intros A p. induction n as [|n IH]; intros ts r E HP; cbn [pReps] in E; [discriminate|]. destruct (p ts) as [|r'|a r'|] eqn:X; try discriminate.
    - unfold tooFar in E. destruct (l_look L <? length ts - length r') eqn:F; inversion E; subst. now apply Nat.ltb_lt in F.
    - unfold pmap in E. destruct (pReps L n p r') eqn:Y; inversion E; subst. specialize (IH _ _ Y HP). apply HP in X. lia.
  Qed.
  Lemma reps_some : forall A (p : parser A) n ts, pReps L n p ts <> PNone.
  Proof.
    intros A p. induction n as [|n IH]; intros ts; cbn [pReps]; [discriminate|]. destruct (p ts) as [|r'|a r'|]; try discriminate.
    - destruct (tooFar L ts r'); discriminate.
    - unfold pmap. specialize (IH r'). destruct (pReps L n p r'); congruence.
  Qed.
  Lemma used_length : forall A (p : parser A) R, used p R -> forall ts a r, p ts = POk a r -> length r <= length ts.
  Proof. intros A p R H ts a r E. destruct (H _ _ _ E) as (u & -> & _). rewrite app_length. lia. Qed.
  Lemma r_math : used pFieldWithMath (fun a u => exists m, outFieldWithMath a = outFieldWithMath (tFmath m) /\ textOf (qMath m) u).
  Proof.
    intros ts a r E. unfold MGrammar.pFieldWithMath, pAlt in E. cbn [pAlts] in E.
    assert (forall fl, pAlts L fl [pmap (fun t => {| fm_type0 := None; fm_type1 := Some t; fm_only := None |}) pType1; pmap (fun f => {| fm_type0 := None; fm_type1 := None; fm_only := Some f |}) (pField L)] ts = POk a r ->
      exists u, ts = u ++ r /\ exists m, outFieldWithMath a = outFieldWithMath (tFmath m) /\ textOf (qMath m) u) as H1.
    { clear E. intros fl E. cbn [pAlts] in E. destruct (pType1 ts) as [|x|t x|] eqn:X.
      - exfalso. assert (pField L ts = PNone) as Y.
        { unfold MGrammar.pType1, pthen in X. destruct (pField L ts) as [| |f y|]; try discriminate; auto.
          match type of X with context [pRep L ?p y] => pose proof (reps_some _ p (S (length y)) y) as Z; unfold pRep in X; destruct (pReps L (S (length y)) p y) end; try discriminate; congruence. }
        unfold pmap in E. rewrite X, Y in E. destruct (fl && l_keep L); discriminate.
      - exfalso. unfold pmap at 1 in E. rewrite X in E. destruct (tooFar L ts x) eqn:F; [discriminate|]. destruct (pField L ts) as [|y|f y|] eqn:Y.
        + unfold pmap in E. rewrite Y in E. destruct (true && l_keep L); discriminate.
        + unfold pmap in E. rewrite Y in E. destruct (tooFar L ts y); try discriminate. destruct (true && l_keep L); discriminate.
        + unfold MGrammar.pType1, pthen in X. rewrite Y in X.
          match type of X with context [pRep L ?p y] => unfold pRep in X; destruct (pReps L (S (length y)) p y) as [|z|z w|] eqn:W end; try discriminate.
          * destruct (reps_some _ _ _ _ W).
          * inversion X; subst. assert (l_look L < length y - length x) as HL.
            { apply (reps_far _ _ _ _ _ W). intros ts' a' r' E'. apply (used_length _ (pthen (pMathOp L) (fun p => pthen (pAlt L [pmap inl pMathValue; pmap inr (pField L)]) (fun x => pret (p, x)))) (fun _ _ => True)) with (a := a'); [clear E'|exact E'].
              eapply u_then with (R := fun _ _ => True) (K := fun _ _ _ => True); [eapply u_weak; [apply r_mathOp|auto]|intro q|auto].
              eapply u_then with (R := fun _ _ => True) (K := fun _ _ _ => True); [|intro; now apply u_ret|auto].
              apply u_alt. repeat apply Forall_cons; try apply Forall_nil; (eapply u_map; [apply r_num||apply r_field|]; auto). }
            apply (used_length _ _ _ r_field) in Y. unfold tooFar in F. apply Nat.ltb_ge in F. lia.
        + unfold pmap in E. rewrite Y in E. discriminate.
      - unfold pmap at 1 in E. rewrite X in E. inversion E; subst. destruct (r_type1 _ _ _ X) as (u & -> & m & HM & HT). exists u. split; auto. exists m. auto.
      - unfold pmap at 1 in E. rewrite X in E. discriminate. }
    unfold pmap at 1 in E. destruct (pType0 ts) as [|x|t x|] eqn:X; try discriminate.
    - exact (H1 false E).
    - destruct (tooFar L ts x); [discriminate|]. exact (H1 true E).
    - inversion E; subst. destruct (r_type0 _ _ _ X) as (u & -> & n & p & f & -> & H). exists u. split; auto. exists (FNumL n p f). split; [reflexivity|exact H].
  Qed.

  (** ** Functions *)
  Definition argVal (a : feArgument) : option feValue := match a with FeArgument _ _ v => v end.
  Definition callR (a : feConstFunc) (u : list token) : Prop := exists c, textOf (qCall c) u /\ forall o x, outConstFunc o x a = outConstFunc o x (tCall c).
  Definition argR (a : feArgument) (u : list token) : Prop :=
    exists g, textOf (qArg g) u /\ (forall o x, outArgument o x a = outArgument o x (tArg g)) /\ argVal a = argVal (tArg g).
  Lemma r_arg : forall sub, used sub callR -> used (pArgument sub) argR.
  Proof.
    intros sub H. unfold MGrammar.pArgument. apply u_alt. repeat apply Forall_cons; try apply Forall_nil.
    - eapply u_map; [exact H|]. intros a u (c & HT & HO). exists (ACall c). split; [exact HT|]. split; [exact HO|reflexivity].
    - eapply u_map; [exact r_math|]. intros a u (m & HO & HT). exists (AField m). split; [exact HT|]. split; [intros; exact HO|reflexivity].
    - eapply u_map; [exact r_value|]. intros a u (v & -> & HT). exists (AValue v). split; [exact HT|]. split; reflexivity.
  Qed.
  Lemma one_eq : forall o x n a, outOneArg o x (FeOneArg (Some n) (Some a)) =
    do m <- outName1 n; do e <- outArgument o x a;
    match argVal a with Some v => if isSet (n NDate) && negb (validTime o (strValue x v)) then Err else Ok (XFunc m [e]) | None => Ok (XFunc m [e]) end.
  Proof. intros o x n [s f [v|]]; reflexivity. Qed.
  Lemma two_eq : forall o x n a b, outTwoArgs o x (FeTwoArgs (Some n) (Some a) (Some b)) = do m <- outName2 n; do d <- outArgument o x a; do e <- outArgument o x b; Ok (XFunc m [d; e]).
  Proof. reflexivity. Qed.
  Lemma r_name1 : used (pOneArgName L) (fun a u => exists f, a = tName1 f /\ textOf [t_ (fun1Word f)] u).
  Proof.
    unfold pOneArgName. apply u_alt.
    assert (forall f w, tk_text (fun1Word f) = s2b w -> used (name1 f w) (fun a u => exists f, a = tName1 f /\ textOf [t_ (fun1Word f)] u)) as H.
    { intros f w E. unfold name1. eapply u_map; [apply u_flag|]. intros a u [-> (t & -> & Ht)]. exists f. split; [destruct f; reflexivity|]. apply text_word. congruence. }
    repeat apply Forall_cons; try apply Forall_nil; apply H; reflexivity.
  Qed.
  Lemma r_close : forall A (a : A), used (pthen (pLit ")") (fun _ => pret a)) (fun b u => b = a /\ textOf [w_ ")"] u).
  Proof.
    intros. eapply u_then with (K := fun _ b u => b = a /\ u = []); [apply u_lit|intro; now apply u_ret|]. intros z b u v H [-> ->]. split; auto. rewrite app_nil_r. now apply text_lit.
  Qed.
  (** word, then something. *)
  Lemma r_lit : forall A s (k : parser A) (R R' : A -> list token -> Prop), used k R -> (forall a u v, textOf [w_ s] u -> R a v -> R' a (u ++ v)) -> used (pthen (pLit s) (fun _ => k)) R'.
  Proof. intros A s k R R' H HR. eapply u_then with (K := fun _ => R); [apply u_lit|intro; exact H|]. intros z b u v HU HV. apply HR; auto. now apply text_lit. Qed.
  Lemma r_call : forall n, used (pConstFunc n) callR.
  Proof.
    induction n as [|n IH]; [intros ts a r E; discriminate|]. cbn [MGrammar.pConstFunc]. unfold pConstFunc1. pose proof (r_arg _ IH) as HA.
    eapply u_then with (K := fun neg a v => forall b u, neg = flag b -> textOf [PSigns b] u -> callR a (u ++ v)); [apply r_minus| |].
    2:{ intros neg a u v (b & -> & H) HK. now apply (HK b). }
    intro neg. apply u_alt. constructor; [|constructor; [|constructor; [|constructor]]].
    - unfold pNoArg. eapply u_map with (R := fun a u => exists c : bool, a = {| n_name := Some (if c then {| na_pi := Some true; na_e := None |} else {| na_pi := None; na_e := Some true |}) |}
        /\ textOf [w_ (if c then "PI" else "E"); w_ "("; w_ ")"] u).
      + eapply u_then with (R := fun a u => exists c : bool, a = (if c then {| na_pi := Some true; na_e := None |} else {| na_pi := None; na_e := Some true |}) /\ textOf [w_ (if c then "PI" else "E")] u)
          (K := fun n a u => a = {| n_name := Some n |} /\ textOf [w_ "("; w_ ")"] u).
        * apply u_alt. repeat apply Forall_cons; try apply Forall_nil; (eapply u_map; [apply u_flag|]; intros a u [-> H]).
          -- exists true. split; [reflexivity|now apply text_lit].
          -- exists false. split; [reflexivity|now apply text_lit].
        * intro nm. eapply r_lit; [apply r_close|]. intros a u v H [-> H2]. split; auto. now apply text_cons.
        * intros a b u v (c & -> & H) [-> H2]. exists c. split; auto. now apply text_cons.
      + intros a v (c & -> & H) b u -> HS. destruct c; [exists (CPi b)|exists (CE b)]; (split; [now apply text_cons|reflexivity]).
    - unfold pOneArg. eapply u_map with (R := fun a u => exists f g, (forall o x, outOneArg o x a = outOneArg o x (FeOneArg (Some (tName1 f)) (Some (tArg g)))) /\ textOf (t_ (fun1Word f) :: w_ "(" :: qArg g ++ [w_ ")"]) u).
      + eapply u_then with (K := fun n a u => exists g, (forall o x, outOneArg o x a = outOneArg o x (FeOneArg (Some n) (Some (tArg g)))) /\ textOf (w_ "(" :: qArg g ++ [w_ ")"]) u); [apply r_name1| |].
        * intro nm. eapply r_lit with (R := fun a u => exists g, (forall o x, outOneArg o x a = outOneArg o x (FeOneArg (Some nm) (Some (tArg g)))) /\ textOf (qArg g ++ [w_ ")"]) u).
          -- eapply u_then; [exact HA|intro a; apply r_close|]. intros a b u v (g & HT & HO & HV) [-> HC]. exists g. split; [|now apply text_app].
             intros o x. rewrite !one_eq, HO, HV. reflexivity.
          -- intros a u v H (g & HO & HT). exists g. split; auto. now apply text_cons.
        * intros a b u v (f & -> & H) (g & HO & HT). exists f, g. split; auto. now apply text_cons.
      + intros a v (f & g & HO & HT) b u -> HS. exists (COne b f g). split; [now apply (text_cons (PSigns b) (t_ (fun1Word f) :: w_ "(" :: qArg g ++ [w_ ")"]))|].
        intros o x. change (outConstFunc o x (FeConstFunc (flag b) None (Some a) None)) with (do e <- outOneArg o x a; Ok (if isTrue (flag b) then XFunc (s2b "mathNegate") [e] else e)). rewrite HO. reflexivity.
    - unfold pTwoArgs. eapply u_map with (R := fun a u => exists (c : bool) g h, (forall o x, outTwoArgs o x a = outTwoArgs o x (FeTwoArgs (Some (if c then {| tn_atan2 := Some true; tn_pow := None |} else {| tn_atan2 := None; tn_pow := Some true |})) (Some (tArg g)) (Some (tArg h))))
        /\ textOf (w_ (if c then "ATAN2" else "POW") :: w_ "(" :: qArg g ++ w_ "," :: qArg h ++ [w_ ")"]) u).
      + eapply u_then with (R := fun a u => exists c : bool, a = (if c then {| tn_atan2 := Some true; tn_pow := None |} else {| tn_atan2 := None; tn_pow := Some true |}) /\ textOf [w_ (if c then "ATAN2" else "POW")] u)
          (K := fun n a u => exists g h, (forall o x, outTwoArgs o x a = outTwoArgs o x (FeTwoArgs (Some n) (Some (tArg g)) (Some (tArg h)))) /\ textOf (w_ "(" :: qArg g ++ w_ "," :: qArg h ++ [w_ ")"]) u).
        * unfold pTwoArgsName. apply u_alt. repeat apply Forall_cons; try apply Forall_nil; (eapply u_map; [apply u_flag|]; intros a u [-> H]).
          -- exists true. split; [reflexivity|now apply text_lit].
          -- exists false. split; [reflexivity|now apply text_lit].
        * intro nm. eapply r_lit with (R := fun a u => exists g h, (forall o x, outTwoArgs o x a = outTwoArgs o x (FeTwoArgs (Some nm) (Some (tArg g)) (Some (tArg h)))) /\ textOf (qArg g ++ w_ "," :: qArg h ++ [w_ ")"]) u).
          -- eapply u_then with (K := fun a b v => exists c h, b = FeTwoArgs (Some nm) (Some a) (Some c) /\ (forall o x, outArgument o x c = outArgument o x (tArg h)) /\ textOf (w_ "," :: qArg h ++ [w_ ")"]) v); [exact HA| |].
             ++ intro a. eapply r_lit with (R := fun b v => exists c h, b = FeTwoArgs (Some nm) (Some a) (Some c) /\ (forall o x, outArgument o x c = outArgument o x (tArg h)) /\ textOf (qArg h ++ [w_ ")"]) v).
                ** eapply u_then; [exact HA|intro c; apply r_close|]. intros c b u v (h & HT & HO & _) [-> HC]. exists c, h. split; auto. split; auto. now apply text_app.
                ** intros b u v H (c & h & -> & HO & HT). exists c, h. split; auto. split; auto. now apply text_cons.
             ++ intros a b u v (g & HT & HO & _) (c & h & -> & HO2 & HT2). exists g, h. split; [|now apply text_app]. intros o x. rewrite !two_eq. now rewrite HO, HO2.
          -- intros a u v H (g & h & HO & HT). exists g, h. split; auto. now apply text_cons.
        * intros a b u v (c & -> & H) (g & h & HO & HT). exists c, g, h. split; auto. now apply text_cons.
      + intros a v (c & g & h & HO & HT) b u -> HS. destruct c; [exists (CAtan2 b g h)|exists (CPow b g h)]; (split; [now apply (text_cons (PSigns b) (_ :: w_ "(" :: qArg g ++ w_ "," :: qArg h ++ [w_ ")"]))|]);
          intros o x; change (outConstFunc o x (FeConstFunc (flag b) None None (Some a))) with (do e <- outTwoArgs o x a; Ok (if isTrue (flag b) then XFunc (s2b "mathNegate") [e] else e)); rewrite HO; reflexivity.
  Qed.

  (** ** Conditions *)
  Definition sideR (a : feSide) (u : list token) : Prop := exists s, textOf (qSide s) u /\ forall o x, outSide o x a = outSide o x (tSide s).
  Lemma r_sdFunc : forall n, used (sdFunc L intOf floatOf n) sideR.
  Proof. intro. eapply u_map; [apply r_call|]. intros a u (c & HT & HO). exists (SCall c). split; auto. Qed.
  Lemma r_sdBool : used (sdBool L) sideR.
  Proof. eapply u_map; [apply r_boolean|]. intros a u (ub & b & -> & H). exists (SBool ub b). split; auto. Qed.
  Lemma r_sdField : used (sdField L intOf floatOf) sideR.
  Proof. eapply u_map; [apply r_math|]. intros a u (m & HO & HT). exists (SField m). split; auto. Qed.
  Lemma r_sdValue : used (sdValue L intOf floatOf) sideR.
  Proof. eapply u_map; [apply r_value|]. intros a u (v & -> & HT). exists (SValue v). split; auto. Qed.
  Ltac sides := unfold pLhs, pRhs; first [apply u_alt|apply gives_alt]; repeat (apply Forall_cons;
    [first [apply r_sdFunc|apply r_sdBool|apply r_sdField|apply r_sdValue|apply c_sdFunc|apply c_sdBool|apply c_sdField|apply c_sdValue]|]); apply Forall_nil.
  Definition sideC (a : feSide) : Prop := forall o x, calm (outSide o x a).
  Lemma r_lhs : forall n, used (pLhs L intOf floatOf n) (fun a u => sideR a u /\ sideC a).
  Proof. intro. apply u_gives; [sides|]. intros ts a r E o x. revert ts a r E. change (gives (fun a => calm (outSide o x a)) (pLhs L intOf floatOf n)). sides. Qed.
  Lemma r_rhs : forall n, used (pRhs L intOf floatOf n) (fun a u => sideR a u /\ sideC a).
  Proof. intro. apply u_gives; [sides|]. intros ts a r E o x. revert ts a r E. change (gives (fun a => calm (outSide o x a)) (pRhs L intOf floatOf n)). sides. Qed.

  Definition opR (a : feOpChar) (u : list token) : Prop :=
    (a = chNot /\ textOf [w_ "!"] u) \/ (a = chEq /\ textOf [w_ "="] u) \/ (a = chLt /\ textOf [w_ "<"] u) \/ (a = chGt /\ textOf [w_ ">"] u).
  Lemma r_opChar : used (pOpChar L) opR.
  Proof.
    unfold pOpChar, opR. apply u_alt. repeat apply Forall_cons; try apply Forall_nil; (eapply u_map; [apply u_flag|]; intros a u [-> H]); apply text_lit in H; unfold chNot, chEq, chLt, chGt; tauto.
  Qed.
  Lemma r_compare : used (pCompareOp L) (fun a u => (exists p, a = tCop p /\ textOf (map t_ (wCop p)) u) \/ forall l r, outCompareOp a l r = Err).
  Proof.
    unfold pCompareOp. eapply u_then with (K := fun a c u => exists b, c = {| op_0 := Some a; op_1 := b |} /\ match b with Some b => opR b u | None => u = [] end); [apply r_opChar| |].
    - intro a. eapply u_then; [apply u_opt, r_opChar|intro b; apply u_ret with (R := fun c u => c = {| op_0 := Some a; op_1 := b |} /\ u = []); auto|].
      intros b c u v H [-> ->]. exists b. rewrite app_nil_r. auto.
    - intros a c u v HA ([b|] & -> & HB).
      + unfold opR in *. destruct HA as [[-> HA]|[[-> HA]|[[-> HA]|[-> HA]]]]; destruct HB as [[-> HB]|[[-> HB]|[[-> HB]|[-> HB]]]]; try (right; intros; reflexivity); left.
        * exists (ONe true). split; [reflexivity|now apply text_cons].
        * exists (OEq true). split; [reflexivity|now apply text_cons].
        * exists OLe. split; [reflexivity|now apply text_cons].
        * exists (ONe false). split; [reflexivity|now apply text_cons].
        * exists OGe. split; [reflexivity|now apply text_cons].
      + subst v. rewrite app_nil_r. destruct HA as [[-> HA]|[[-> HA]|[[-> HA]|[-> HA]]]]; try (right; intros; reflexivity); left.
        * exists (OEq false). split; [reflexivity|auto].
        * exists OLt. split; [reflexivity|auto].
        * exists OGt. split; [reflexivity|auto].
  Qed.
  Definition ckOf (neg nul : bool) : feCheckOp := {| ck_not := flag neg; ck_null := if nul then Some true else None; ck_missing := if nul then None else Some true |}.
  Lemma r_check : used (pCheckOp L) (fun a u => exists neg nul : bool, a = ckOf neg nul /\ textOf (qIs neg ++ [w_ (if nul then "NULL" else "MISSING")]) u).
  Proof.
    unfold pCheckOp. eapply r_lit with (R := fun a u => exists neg nul : bool, a = ckOf neg nul /\ textOf ((if neg then [w_ "NOT"] else []) ++ [w_ (if nul then "NULL" else "MISSING")]) u).
    - eapply u_then with (K := fun n a u => exists nul : bool, a = ckOf (match n with Some _ => true | None => false end) nul /\ textOf [w_ (if nul then "NULL" else "MISSING")] u); [apply u_opt, u_lit| |].
      + intro n. apply u_alt. repeat apply Forall_cons; try apply Forall_nil; (eapply u_map; [apply u_flag|]; intros a u [-> H]); apply text_lit in H.
        * exists true. split; [destruct n; reflexivity|exact H].
        * exists false. split; [destruct n; reflexivity|exact H].
      + intros [z|] b u v HU (nul & -> & HV).
        * exists true, nul. split; auto. apply text_cons; auto. now apply text_lit.
        * subst u. exists false, nul. split; auto.
    - intros a u v H (neg & nul & -> & H2). exists neg, nul. split; auto. unfold qIs. now apply (text_cons (w_ "IS") ((if neg then [w_ "NOT"] else []) ++ [w_ (if nul then "NULL" else "MISSING")])).
  Qed.
  Definition operandR (a : feOperand) (u : list token) : Prop :=
    (exists b, textOf (qBasic b) u /\ forall o x, outOperand o x a = outOperand o x (tBasic b)) \/ forall o x, outOperand o x a = Err.
  Lemma r_argRHS : forall n, used (pArgumentRHS L intOf floatOf n) (fun a u =>
    (exists v, a = {| ar_sub := None; ar_value := Some (tValue v) |} /\ textOf (qValue v) u) \/ (exists c s, a = {| ar_sub := Some s; ar_value := None |} /\ textOf (qCall c) u)).
  Proof.
    intro n. unfold pArgumentRHS. apply u_alt. repeat apply Forall_cons; try apply Forall_nil.
    - eapply u_map; [apply r_call|]. intros a u (c & HT & HO). right. eauto.
    - eapply u_map; [apply r_value|]. intros a u (v & -> & HT). left. eauto.
  Qed.
  Lemma r_regex : forall n, used (pBoolTwoArgs L intOf floatOf n) (fun a u => exists b, textOf (qBasic b) u /\ forall o x, outOperand o x (boolFunc {| bf_two := Some a; bf_exists := None |}) = outOperand o x (tBasic b)).
  Proof.
    intro n. pose proof (r_arg _ (r_call n)) as HA. unfold pBoolTwoArgs.
    set (RR := fun (q : list pat -> list pat) (a : feBoolTwoArgs) (u : list token) => exists g a0 b, a = {| bt_name := Some {| bn_regex := Some true |}; bt_arg0 := Some a0; bt_arg1 := Some b |}
      /\ (forall o x, outArgument o x a0 = outArgument o x (tArg g)) /\
      ((exists v, b = {| ar_sub := None; ar_value := Some (tValue v) |} /\ textOf (q (qArg g ++ w_ "," :: qValue v ++ [w_ ")"])) u) \/ (exists c s, b = {| ar_sub := Some s; ar_value := None |} /\ textOf (q (qArg g ++ w_ "," :: qCall c ++ [w_ ")"])) u))).
    eapply u_weak with (R := RR (fun l => w_ "REGEXP_CONTAINS" :: w_ "(" :: l)).
    - eapply u_then with (R := fun m u => m = {| bn_regex := Some true |} /\ textOf [w_ "REGEXP_CONTAINS"] u) (K := fun m a u => m = {| bn_regex := Some true |} -> RR (fun l => w_ "(" :: l) a u).
      + eapply u_map; [apply u_flag|]. intros a u [-> H]. split; auto. now apply text_lit.
      + intro m. eapply r_lit with (R := fun a u => m = {| bn_regex := Some true |} -> RR (fun l => l) a u).
        * eapply u_then with (K := fun a0 a u => exists b, a = {| bt_name := Some m; bt_arg0 := Some a0; bt_arg1 := Some b |} /\
            ((exists v, b = {| ar_sub := None; ar_value := Some (tValue v) |} /\ textOf (w_ "," :: qValue v ++ [w_ ")"]) u) \/ (exists c s, b = {| ar_sub := Some s; ar_value := None |} /\ textOf (w_ "," :: qCall c ++ [w_ ")"]) u)));
            [exact HA| |].
          -- intro a0. eapply r_lit with (R := fun a u => exists b, a = {| bt_name := Some m; bt_arg0 := Some a0; bt_arg1 := Some b |} /\
               ((exists v, b = {| ar_sub := None; ar_value := Some (tValue v) |} /\ textOf (qValue v ++ [w_ ")"]) u) \/ (exists c s, b = {| ar_sub := Some s; ar_value := None |} /\ textOf (qCall c ++ [w_ ")"]) u))).
             ++ eapply u_then; [apply r_argRHS|intro b; apply r_close|]. intros b a u v HB [-> HC]. exists b. split; auto.
                destruct HB as [(y & -> & H)|(c & s & -> & H)]; [left; exists y|right; exists c, s]; (split; auto; now apply text_app).
             ++ intros a u v H (b & -> & HB). exists b. split; auto. destruct HB as [(y & -> & H2)|(c & s & -> & H2)]; [left; exists y|right; exists c, s]; (split; auto; now apply text_cons).
          -- intros a0 a u v (g & HT & HO & _) (b & -> & HB) ->. exists g, a0, b. split; auto. split; auto.
             destruct HB as [(y & -> & H2)|(c & s & -> & H2)]; [left; exists y|right; exists c, s]; (split; auto; now apply text_app).
        * intros a u v H HB E. destruct (HB E) as (g & a0 & b & -> & HO & HC). exists g, a0, b. split; auto. split; auto.
          destruct HC as [(y & -> & H2)|(c & s & -> & H2)]; [left; exists y|right; exists c, s]; (split; auto; now apply text_cons).
      + intros m a u v [E H] HB. destruct (HB E) as (g & a0 & b & -> & HO & HC). exists g, a0, b. split; auto. split; auto.
        destruct HC as [(y & -> & H2)|(c & s & -> & H2)]; [left; exists y|right; exists c, s]; (split; auto; now apply text_cons).
    - intros a u (g & a0 & b & -> & HO & HC). destruct HC as [(y & -> & H2)|(c & s & -> & H2)].
      + exists (BRegex g y). split; [exact H2|]. intros o x. cbn. now rewrite HO.
      + exists (BRegexCall g c). split; [exact H2|]. intros o x. cbn. now rewrite HO.
  Qed.
  Lemma r_exists : used (pExists L) (fun a u => exists f, a = {| ex_field := Some (tField f) |} /\ textOf (qBasic (BExists f)) u).
  Proof.
    unfold pExists. eapply r_lit with (R := fun a u => exists f, a = {| ex_field := Some (tField f) |} /\ textOf (w_ "(" :: qField f ++ [w_ ")"]) u).
    - eapply r_lit with (R := fun a u => exists f, a = {| ex_field := Some (tField f) |} /\ textOf (qField f ++ [w_ ")"]) u).
      + eapply u_then; [apply r_field|intro f; apply r_close|]. intros a b u v (f & -> & H) [-> HC]. exists f. split; auto. now apply text_app.
      + intros a u v H (f & -> & H2). exists f. split; auto. now apply text_cons.
    - intros a u v H (f & -> & H2). exists f. split; auto. cbn [qBasic]. now apply text_cons.
  Qed.
  Lemma r_operand : forall n, used (pOperand L intOf floatOf n) operandR.
  Proof.
    intro n. unfold pOperand. apply u_alt. constructor; [|constructor; [|constructor]].
    - eapply u_map with (R := fun a u => exists b, textOf (qBasic b) u /\ forall o x, outOperand o x (boolOperand a) = outOperand o x (tBasic b)); [|intros a u (b & HT & HO); left; exists b; auto].
      unfold pBooleanExpr. apply u_alt. constructor; [|constructor; [|constructor]].
      + eapply u_map; [apply r_boolean|]. intros a u (ub & b & -> & H). exists (BConst ub b). split; auto.
      + eapply u_map with (R := fun a u => exists b, textOf (qBasic b) u /\ forall o x, outOperand o x (boolFunc a) = outOperand o x (tBasic b)); [|auto].
        unfold pBooleanFunc. apply u_alt. constructor; [|constructor; [|constructor]].
        * eapply u_map; [apply r_regex|]. auto.
        * eapply u_map; [apply r_exists|]. intros a u (f & -> & H). exists (BExists f). split; auto.
    - eapply u_then with (K := fun l a v => (exists p r s, a = {| o_bool := None; o_lhs := Some l; o_op := Some (tCop p); o_rhs := Some r; o_check := None |} /\ (forall o x, outSide o x r = outSide o x (tSide s)) /\ textOf (map t_ (wCop p) ++ qSide s) v)
          \/ (exists p r, a = {| o_bool := None; o_lhs := Some l; o_op := Some p; o_rhs := Some r; o_check := None |} /\ sideC r /\ forall l r, outCompareOp p l r = Err)
          \/ (exists neg nul : bool, a = {| o_bool := None; o_lhs := Some l; o_op := None; o_rhs := None; o_check := Some (ckOf neg nul) |} /\ textOf (qIs neg ++ [w_ (if nul then "NULL" else "MISSING")]) v)); [apply r_lhs| |].
      + intro l. apply u_alt. constructor; [|constructor; [|constructor]].
        * eapply u_then with (K := fun p a v => exists r s, a = {| o_bool := None; o_lhs := Some l; o_op := Some p; o_rhs := Some r; o_check := None |} /\ (forall o x, outSide o x r = outSide o x (tSide s)) /\ textOf (qSide s) v /\ sideC r); [apply r_compare| |].
          -- intro p. eapply u_then; [apply r_rhs|intro r; apply u_ret with (R := fun a u => a = {| o_bool := None; o_lhs := Some l; o_op := Some p; o_rhs := Some r; o_check := None |} /\ u = []); auto|].
             intros r b u v [(s & HT & HO) HC] [-> ->]. rewrite app_nil_r. exists r, s. auto.
          -- intros p b u v [(p' & -> & HP)|HE] (r & s & -> & HO & HT & HC).
             ++ left. exists p', r, s. split; auto. split; auto. now apply text_app.
             ++ right. left. exists p, r. auto.
        * eapply u_map; [apply r_check|]. intros a u (neg & nul & -> & H). right. right. exists neg, nul. auto.
      + intros l a u v [(s & HT & HO) HC] [(p & r & s' & -> & HO' & HT')|[(p & r & -> & HC' & HE)|(neg & nul & -> & HT')]].
        * left. exists (BCmp s p s'). split; [cbn [qBasic]; now apply text_app|]. intros o x. unfold outOperand. cbn [tBasic o_bool o_lhs o_op o_rhs o_check]. now rewrite HO, HO'.
        * right. intros o x. unfold outOperand. cbn [o_bool o_lhs o_op o_rhs o_check]. specialize (HC o x). specialize (HC' o x). destruct (outSide o x l); cbn in HC; try (destruct HC; fail); [|reflexivity]. cbn [obind].
          destruct (outSide o x r); cbn in HC'; try (destruct HC'; fail); [|reflexivity]. cbn [obind]. apply HE.
        * left. destruct nul; [exists (BNull neg s)|exists (BMissing neg s)]; (split; [cbn [qBasic]; now apply text_app|]); intros o x; unfold outOperand; cbn [tBasic o_bool o_lhs o_op o_rhs o_check]; now rewrite HO.
  Qed.
  Definition condR (a : feCondition) (u : list token) : Prop :=
    (exists c, textOf (qCond c) u /\ forall o x, outCondition o x a = outCondition o x (tCond c)) \/ forall o x, outCondition o x a = Err.
  Lemma r_condition : forall n, used (pCondition L intOf floatOf n) condR.
  Proof.
    induction n as [|n IH]; [intros ts a r E; discriminate|]. cbn [pCondition]. apply u_alt. constructor; [|constructor; [|constructor]].
    - eapply r_lit with (R := fun b u => exists c, b = FeCondition (Some c) None /\ condR c u); [eapply u_map; [exact IH|]; eauto|].
      intros a u v HW (c & -> & HC). destruct HC as [(d & HT & HO)|HE].
      + left. exists (CNot d). split; [now apply text_cons|]. intros o x. cbn [outCondition tCond]. now rewrite HO.
      + right. intros o x. cbn [outCondition]. now rewrite HE.
    - eapply u_map; [apply r_operand|]. intros a u [(b & HT & HO)|HE]; [left; exists (CBasic b); split; auto|right; auto].
  Qed.

  (** ** Filters *)
  Definition goQ {X : Type} (w : string) (q : X -> list pat) : list X -> list pat :=
    fix go l := match l with [] => [] | t :: r => w_ w :: q t ++ go r end.
  Section Elements.
    Context {A X : Type}.
    Variable out : oracles -> textEnv -> A -> outcome expr.
    Variable q : X -> list pat.
    Variable t : X -> A.
    Definition elemR (a : A) (u : list token) : Prop :=
      ((exists c, textOf (q c) u /\ forall o x, out o x a = out o x (t c)) \/ forall o x, out o x a = Err) /\ forall o x, calm (out o x a).
    Lemma elems : forall w l vs, Forall2 (fun a v => exists u0 u1, v = u0 ++ u1 /\ textOf [w_ w] u0 /\ elemR a u1) l vs ->
      ((exists cs, textOf (goQ w q cs) (concat vs) /\ forall o x, goAll (out o x) l = goAll (out o x) (map t cs)) \/ forall o x, goAll (out o x) l = Err) /\
      forall o x, calm (goAll (out o x) l).
    Proof.
      intros w l vs H. split.
      - induction H as [|a v l vs (u0 & u1 & -> & HW & HE & HC) HF IH].
        + left. exists []. split; [constructor|reflexivity].
        + cbn [concat goAll]. destruct HE as [(c & HT & HO)|HE]; [|right; intros o x; now rewrite HE]. destruct IH as [(cs & HT2 & HO2)|HE].
          * left. exists (c :: cs). split.
            -- cbn [goQ]. rewrite <- app_assoc. apply text_cons; auto. now apply text_app.
            -- intros o x. cbn [map goAll]. now rewrite HO, HO2.
          * right. intros o x. specialize (HC o x). destruct (out o x a) as [e| | |]; cbn in HC; try (destruct HC; fail); [|reflexivity]. cbn [obind]. now rewrite HE.
      - intros o x. apply calm_all. induction H as [|a v l vs (u0 & u1 & -> & HW & HE & HC) HF IH]; constructor; auto.
    Qed.
  End Elements.
  Definition subR := elemR outSub qTerm_ tTerm.
  Definition andR := elemR outInnerAnd qConj tConj.
  Definition innerR := elemR outInner qFilter tFilter.
  Lemma r_sub : forall n sub, used sub innerR -> used (pSub L intOf floatOf n sub) subR.
  Proof.
    intros n sub H. unfold pSub. apply u_alt. constructor; [|constructor; [|constructor]].
    - eapply r_lit with (R := fun b v => exists i u0 u1, b = FeSubOrTerm (Some i) None /\ v = u0 ++ u1 /\ innerR i u0 /\ textOf [w_ ")"] u1).
      + eapply u_then; [exact H|intro i; apply r_close|]. intros i b u v HI [-> HC]. exists i, u, v. auto.
      + intros a u v HW (i & u0 & u1 & -> & -> & [HE HC] & HT). split; [|exact HC]. destruct HE as [(f & HT2 & HO)|HE]; [left|right; exact HE].
        exists (TParen f). split; [|exact HO]. change (qTerm_ (TParen f)) with (w_ "(" :: qFilter f ++ [w_ ")"]). apply text_cons; auto. now apply text_app.
    - eapply u_map with (R := fun a u => condR a u /\ forall o x, calm (outCondition o x a)).
      + apply u_gives; [apply r_condition|]. intros ts a r E o x. eapply c_condition; eauto.
      + intros a u [[(c & HT & HO)|HE] HC]; (split; [|exact HC]); [left; exists (TCond c); auto|right; exact HE].
  Qed.
  Lemma r_and : forall n sub, used sub innerR -> used (pInnerAnd L intOf floatOf n sub) andR.
  Proof.
    intros n sub H. pose proof (r_sub n sub H) as HS. unfold pInnerAnd.
    eapply u_then with (K := fun a b v => exists l vs, b = FeInnerAnd (a :: l) /\ v = concat vs /\ Forall2 (fun a v => exists u0 u1, v = u0 ++ u1 /\ textOf [w_ "AND"] u0 /\ subR a u1) l vs); [exact HS| |].
    - intro a. eapply u_then; [apply u_rep|intro l; apply u_ret with (R := fun b v => b = FeInnerAnd (a :: l) /\ v = []); auto|].
      + eapply r_lit with (R' := fun a v => exists u0 u1, v = u0 ++ u1 /\ textOf [w_ "AND"] u0 /\ subR a u1); [exact HS|]. eauto 6.
      + intros l b u v (vs & HF & ->) [-> ->]. rewrite app_nil_r. eauto.
    - intros a b u v [HE HC] (l & vs & -> & -> & HF). destruct (elems outSub qTerm_ tTerm _ _ _ HF) as [HE2 HC2]. split.
      + destruct HE as [(c & HT & HO)|HE].
        * destruct HE2 as [(cs & HT2 & HO2)|HE2].
          -- left. exists (FAnd c cs). split; [change (qConj (FAnd c cs)) with (qTerm_ c ++ goQ "AND" qTerm_ cs); now apply text_app|]. intros o x.
             change (outInnerAnd o x (tConj (FAnd c cs))) with (do es <- (do e <- outSub o x (tTerm c); do es <- goAll (outSub o x) (map tTerm cs); Ok (e :: es)); Ok (XAnd es)).
             change (outInnerAnd o x (FeInnerAnd (a :: l))) with (do es <- (do e <- outSub o x a; do es <- goAll (outSub o x) l; Ok (e :: es)); Ok (XAnd es)). now rewrite HO, HO2.
          -- right. intros o x. change (outInnerAnd o x (FeInnerAnd (a :: l))) with (do es <- (do e <- outSub o x a; do es <- goAll (outSub o x) l; Ok (e :: es)); Ok (XAnd es)).
             specialize (HC o x). destruct (outSub o x a) as [e| | |]; cbn in HC; try (destruct HC; fail); [|reflexivity]. cbn [obind]. now rewrite HE2.
        * right. intros o x. change (outInnerAnd o x (FeInnerAnd (a :: l))) with (do es <- (do e <- outSub o x a; do es <- goAll (outSub o x) l; Ok (e :: es)); Ok (XAnd es)). now rewrite HE.
      + intros o x. change (calm (do es <- (do e <- outSub o x a; do es <- goAll (outSub o x) l; Ok (e :: es)); Ok (XAnd es))).
        repeat (apply calm_bind; auto; try intros; try exact I).
  Qed.
  Lemma r_inner : forall n, used (pInner L intOf floatOf n) innerR.
  Proof.
    induction n as [|n IH]; [intros ts a r E; discriminate|]. pose proof (r_and (S n) _ IH) as HS. cbn [pInner].
    eapply u_then with (K := fun a b v => exists l vs, b = FeInner (a :: l) /\ v = concat vs /\ Forall2 (fun a v => exists u0 u1, v = u0 ++ u1 /\ textOf [w_ "OR"] u0 /\ andR a u1) l vs); [exact HS| |].
    - intro a. eapply u_then; [apply u_rep|intro l; apply u_ret with (R := fun b v => b = FeInner (a :: l) /\ v = []); auto|].
      + eapply r_lit with (R' := fun a v => exists u0 u1, v = u0 ++ u1 /\ textOf [w_ "OR"] u0 /\ andR a u1); [exact HS|]. eauto 6.
      + intros l b u v (vs & HF & ->) [-> ->]. rewrite app_nil_r. eauto.
    - intros a b u v [HE HC] (l & vs & -> & -> & HF). destruct (elems outInnerAnd qConj tConj _ _ _ HF) as [HE2 HC2]. split.
      + destruct HE as [(c & HT & HO)|HE].
        * destruct HE2 as [(cs & HT2 & HO2)|HE2].
          -- left. exists (FOr c cs). split; [change (qFilter (FOr c cs)) with (qConj c ++ goQ "OR" qConj cs); now apply text_app|]. intros o x.
             change (outInner o x (tFilter (FOr c cs))) with (do es <- (do e <- outInnerAnd o x (tConj c); do es <- goAll (outInnerAnd o x) (map tConj cs); Ok (e :: es)); Ok (XOr es)).
             change (outInner o x (FeInner (a :: l))) with (do es <- (do e <- outInnerAnd o x a; do es <- goAll (outInnerAnd o x) l; Ok (e :: es)); Ok (XOr es)). now rewrite HO, HO2.
          -- right. intros o x. change (outInner o x (FeInner (a :: l))) with (do es <- (do e <- outInnerAnd o x a; do es <- goAll (outInnerAnd o x) l; Ok (e :: es)); Ok (XOr es)).
             specialize (HC o x). destruct (outInnerAnd o x a) as [e| | |]; cbn in HC; try (destruct HC; fail); [|reflexivity]. cbn [obind]. now rewrite HE2.
        * right. intros o x. change (outInner o x (FeInner (a :: l))) with (do es <- (do e <- outInnerAnd o x a; do es <- goAll (outInnerAnd o x) l; Ok (e :: es)); Ok (XOr es)). now rewrite HE.
      + intros o x. change (calm (do es <- (do e <- outInnerAnd o x a; do es <- goAll (outInnerAnd o x) l; Ok (e :: es)); Ok (XOr es))).
        repeat (apply calm_bind; auto; try intros; try exact I).
  Qed.
  Theorem parse_reads : forall ts t, parseTokens L intOf floatOf ts = Ok t ->
    (exists f, textOf (qFilter f) ts /\ forall o x, outputExpression o x t = outputExpression o x (tree f)) \/ forall o x, outputExpression o x t = Err.
  Proof.
    intros ts t E. unfold parseTokens in E. destruct (pInner L intOf floatOf (S (length ts)) ts) as [|r|i [|? ?]|] eqn:X; inversion E; subst.
    destruct (r_inner _ _ _ _ X) as (u & -> & H & _). rewrite app_nil_r. exact H.
  Qed.
End Lib.
