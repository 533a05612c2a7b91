(** Matching: final statements (C17, C19, C20, C21, C23, C24, C26, C28, C29, C31). *)
From Coq Require Import String.
From Verif Require Import Base PTokenizer MTokenizer SJson MLit MFastVal MMath SFormula SEvents SMerge MBinTree MSession MExpr SCompile MTransform SFilter
  MMatcher MTree SDoc SSat SSem PTree PTrace PWf PExpr PCompile PPlace PFun PSites PHeap PEval PMatch PSem PCheck PReset TReset SExamples.
From Coq Require Import List NArith ZArith Arith Lia Bool Permutation.
Import ListNotations.
Open Scope nat_scope.

(** ** C17: what does compile *)
Theorem C17_compilable_compiles : forall o es, Forall (compilable o 0) es -> exists D, transform o es = Ok D.
Proof.
  intros o es HC. destruct (genExprs es) as [|g gs] eqn:Eg.
  - unfold transform. rewrite Eg. eauto.
  - assert (Forall (compilable o 0) (g :: gs)) as HC'.
    { rewrite <- Eg. apply Forall_forall. intros e He. apply filter_In in He as [He _]. rewrite Forall_forall in HC. auto. }
    destruct (merge_compiled o g gs HC') as (t & ids & A & ow & E & _). destruct (transform_validates o es g gs t ids Eg E) as [-> _]. eauto.
Qed.

(** ** Answers *)

(** A matcher as new: created for the definition, or reset after any use. *)
Definition ready (o : oracles) (D : matchdef) (s : mst) : Prop :=
  s = newMatcher D \/ exists h, history o D h /\ s = resetMatcher h.

(** Compiling the expressions and matching the text ends, with the answer [b]
    for the whole and [f e] for each expression, on every ready matcher.  (FALSE has
    no answer of its own: asking for it crashes.) *)
Definition answers (o : oracles) (es : list expr) (txt : bytes) (b : bool) (f : expr -> bool) : Prop :=
  exists D, transform o es = Ok D /\ forall s0, ready o D s0 -> exists f0, forall fuel, f0 <= fuel -> exists s,
    match_ fuel o D txt s0 = Ok (s, Some b)
    /\ forall i e, nth_error es i = Some e -> e <> XFalse -> expressionMatched D s i = Ok (f e).

Lemma gen_reg : forall o es, supported o es -> genExprs es <> [] /\ forall e, In e es -> isConst e = None \/ e = XFalse.
Proof.
  intros o es ((e & He & Hn) & _ & HR). rewrite Forall_forall in HR.
  assert (forall x, In x es -> isConst x = None \/ x = XFalse) as X.
  { intros x Hx. specialize (HR x Hx). destruct x; auto. contradiction. }
  split; auto. intro E. assert (In e (genExprs es)) as HI; [|rewrite E in HI; exact HI].
  apply filter_In. split; auto. destruct (X e He) as [-> | ->]; [reflexivity|contradiction].
Qed.
Lemma gen_paths : forall es v, (forall e, In e es -> isConst e = None \/ e = XFalse) -> pathsOf v (XOr (genExprs es)) = pathsOf v (XOr es).
Proof.
  intros es v HX. unfold pathsOf. cbn [frefs]. f_equal. f_equal. induction es as [|e es IH]; auto. unfold genExprs. cbn [filter].
  fold (genExprs es). assert (flat_map frefs (genExprs es) = flat_map frefs es) as X by (apply IH; intros; apply HX; now right).
  destruct (HX e (or_introl eq_refl)) as [E | ->]; [rewrite E|]; cbn [flat_map isConst]; now rewrite X.
Qed.
Lemma gen_sub : forall es e, In e (genExprs es) -> In e es.
Proof. intros es e HI. now apply filter_In in HI. Qed.
Lemma gen_forall : forall (P : expr -> Prop) es, Forall P es -> Forall P (genExprs es).
Proof. intros P es X. rewrite Forall_forall in *. intros e He. apply X. now apply gen_sub. Qed.
Lemma gen_readable : forall doc es, readable doc es -> readable doc (genExprs es).
Proof. intros [| |] es0 X; auto; now apply gen_forall. Qed.
Lemma readable_one : forall doc es e, readable doc es -> In e es -> readable doc [e].
Proof. intros [| |] es0 e X He; auto; cbn [readable] in *; rewrite Forall_forall in X; constructor; auto. Qed.
Lemma gen_exists : forall f es, f XFalse = false -> (forall e, In e es -> isConst e = None \/ e = XFalse) -> existsb f (genExprs es) = existsb f es.
Proof.
  intros f es Hf HX. induction es as [|e es IH]; auto. unfold genExprs. cbn [filter existsb]. fold (genExprs es). rewrite <- IH by (intros; apply HX; now right).
  destruct (HX e (or_introl eq_refl)) as [E | ->]; [rewrite E; reflexivity|]. cbn [isConst]. now rewrite Hf.
Qed.

(** ** The answer is the truth *)
Theorem match_truth_tail : forall o es w1 doc w2, supported o es -> ws w1 -> wf_cst doc -> num_stop w2 -> benign es doc ->
  answers o es (doc_text w1 doc w2) (existsb (truth o doc doc) es) (truth o doc doc).
Proof.
  intros o es w1 doc w2 HS W1 WD W2 (Hobj & HDi & HT & HL & HF). destruct (gen_reg o es HS) as [Hne HX]. destruct HS as (_ & HC & HR).
  destruct (genExprs es) as [|g gs] eqn:Eg; [contradiction|].
  assert (docOk o doc) as HD by now apply wf_docOk.
  assert (forall e, In e es -> sat o doc e = truth o doc doc e) as ST.
  { intros e He. rewrite Forall_forall in HC, HR, HF. eapply sat_truth; eauto. }
  destruct (match_decides o es g gs w1 doc w2 Eg) as (D & ED & f0 & Hm); auto.
  1, 4, 5: rewrite <- Eg; now apply gen_forall.
  2: rewrite <- Eg; now apply gen_readable.
  { rewrite <- Eg. rewrite gen_paths by auto. now apply gen_forall. }
  assert (existsb (sat o doc) (g :: gs) = existsb (truth o doc doc) es) as EX.
  { rewrite <- (gen_exists (truth o doc doc) es), Eg by auto. assert (forall x, In x (g :: gs) -> sat o doc x = truth o doc doc x) as Y.
    { intros x Hx. apply ST. rewrite <- Eg in Hx. now apply gen_sub. }
    clear -Y. induction (g :: gs) as [|x l IH]; auto. cbn [existsb]. rewrite Y by now left. rewrite IH; auto. intros; apply Y; now right. }
  exists D. split; auto. intros s0 Hs0. exists f0. intros fuel Hfu. destruct (Hm fuel Hfu) as (s & Es & Ei). rewrite EX in Es.
  assert (forall i e, nth_error es i = Some e -> e <> XFalse -> expressionMatched D s i = Ok (truth o doc doc e)) as Ei'.
  { intros i e Hi Hn. rewrite <- ST by (eapply nth_error_In; eauto). apply Ei; auto. destruct (HX e) as [E|E]; auto; [eapply nth_error_In; eauto|contradiction]. }
  destruct Hs0 as [-> | (h & Hh & ->)]; [eauto|].
  pose proof (C22_reset_is_fresh o D h fuel (doc_text w1 doc w2) Hh) as X. rewrite Es in X.
  destruct (match_ fuel o D (doc_text w1 doc w2) (resetMatcher h)) as [[sr r1]| | |]; try contradiction.
  destruct X as (-> & _ & _ & _ & _ & X & _). exists sr. split; auto. intros i e Hi Hn. rewrite X. auto.
Qed.
Theorem match_truth : forall o es w1 doc w2, supported o es -> ws w1 -> wf_cst doc -> ws w2 -> benign es doc ->
  answers o es (doc_text w1 doc w2) (existsb (truth o doc doc) es) (truth o doc doc).
Proof. intros. apply match_truth_tail; auto using num_stop_ws_tail. Qed.

(** ** C19: filters without loops *)
Fixpoint loopFree (e : expr) : Prop :=
  match e with
  | XLoop _ _ _ _ => False
  | XNot a => loopFree a
  | XAnd l | XOr l => (fix go l := match l with [] => True | x :: r => loopFree x /\ go r end) l
  | _ => True
  end.
Lemma loopFree_and : forall l, loopFree (XAnd l) <-> Forall loopFree l.
Proof. intros. cbn [loopFree]. induction l as [|x l IH]; split; intro X; auto; [constructor; tauto|inversion X; subst; tauto]. Qed.
Lemma loopFree_or : forall l, loopFree (XOr l) <-> Forall loopFree l.
Proof. intros. cbn [loopFree]. induction l as [|x l IH]; split; intro X; auto; [constructor; tauto|inversion X; subst; tauto]. Qed.
Lemma loopFree_doc : forall doc e, loopFree e -> looped doc e /\ fairTop doc e.
Proof.
  intro doc. induction e as [| |g|sa|sa|sa|a IH|l IH|l IH|r p|n l IH|m v i s IHi IHs|a IH|a IH|k l r IHl IHr] using expr_ind';
    intro X; try (split; exact I); try contradiction.
  - cbn [looped fairTop]. now apply IH.
  - apply loopFree_and in X. rewrite looped_and, fairTop_and, !Forall_forall in *. split; intros x Hx; now apply IH, X.
  - apply loopFree_or in X. rewrite looped_or, fairTop_or, !Forall_forall in *. split; intros x Hx; now apply IH, X.
Qed.

Lemma loopFree_readable : forall doc e, loopFree e -> container doc -> readable doc [e].
Proof.
  intros doc e X Y. destruct doc as [|es w|]; [destruct Y| |exact I]. constructor; [|constructor].
  clear Y. induction e as [| |g|sa|sa|sa|a IH|l IH|l IH|r p|n l IH|m v i s IHi IHs|a IH|a IH|k l r IHl IHr] using expr_ind'; try exact I; try contradiction.
  - now apply IH.
  - apply loopFree_and in X. apply found_and. rewrite Forall_forall in *. auto.
  - apply loopFree_or in X. apply found_or. rewrite Forall_forall in *. auto.
Qed.

Theorem C19_loop_free : forall o e w1 doc w2, supported o [e] -> loopFree e ->
  ws w1 -> wf_cst doc -> ws w2 -> readable doc [e] -> distinct doc -> tame doc 0 doc e ->
  answers o [e] (doc_text w1 doc w2) (truth o doc doc e) (truth o doc doc).
Proof.
  intros o e w1 doc w2 HS HF W1 WD W2 Hobj HD HT. destruct (loopFree_doc doc e HF) as [HL HFt].
  pose proof (match_truth o [e] w1 doc w2 HS W1 WD W2) as X. cbn [existsb] in X. rewrite orb_false_r in X. apply X.
  unfold benign. auto 10.
Qed.

(** Without functions it is enough that the document contains no empty array or
    object. *)
Fixpoint solid (v : cst) : Prop :=
  match v with
  | CLit _ _ => True
  | CArr es _ => es <> [] /\ (fix go es := match es with [] => True | e :: r => solid (e_v e) /\ go r end) es
  | CObj ms _ => ms <> [] /\ (fix go ms := match ms with [] => True | m :: r => solid (m_v m) /\ go r end) ms
  end.
Definition basicOperand (e : expr) : Prop := match e with XField _ _ | XValue _ | XTime _ | XRegex _ | XPcre _ => True | _ => False end.
Fixpoint basic (e : expr) : Prop :=
  match e with
  | XNot a => basic a
  | XAnd l | XOr l => (fix go l := match l with [] => True | x :: r => basic x /\ go r end) l
  | XExists a | XNotExists a => basicOperand a
  | XCmp _ l r => basicOperand l /\ basicOperand r
  | XFalse => True
  | _ => False
  end.
Lemma basic_and : forall l, basic (XAnd l) <-> Forall basic l.
Proof. intros. cbn [basic]. induction l as [|x l IH]; split; intro X; auto; [constructor; tauto|inversion X; subst; tauto]. Qed.
Lemma basic_or : forall l, basic (XOr l) <-> Forall basic l.
Proof. intros. cbn [basic]. induction l as [|x l IH]; split; intro X; auto; [constructor; tauto|inversion X; subst; tauto]. Qed.
Lemma solid_arr : forall es w, solid (CArr es w) <-> es <> [] /\ Forall (fun e => solid (e_v e)) es.
Proof. intros es w. cbn [solid]. apply and_iff_compat_l. induction es as [|e es IH]; split; intro X; auto; [constructor; tauto|inversion X; subst; tauto]. Qed.
Lemma solid_obj : forall ms w, solid (CObj ms w) <-> ms <> [] /\ Forall (fun m => solid (m_v m)) ms.
Proof. intros ms w. cbn [solid]. apply and_iff_compat_l. induction ms as [|m ms IH]; split; intro X; auto; [constructor; tauto|inversion X; subst; tauto]. Qed.
Lemma solid_empty : forall v, solid v -> emptyC v = false.
Proof. intros [t lx|[|e es] w|[|m ms] w] X; auto; destruct X as [X _]; contradiction. Qed.
Lemma solid_item : forall v k w, solid v -> In (k, w) (items v) -> solid w.
Proof.
  intros [t lx|es wc|ms wc] k w X HI; cbn [items] in HI; [destruct HI| |].
  - apply solid_arr in X as [_ X]. apply (in_map snd) in HI. rewrite arr_vals in HI. cbn [snd] in HI. apply in_map_iff in HI as (e & <- & He).
    rewrite Forall_forall in X. auto.
  - apply solid_obj in X as [_ X]. apply in_map_iff in HI as (m & E & Hm). injection E as _ <-. rewrite Forall_forall in X. auto.
Qed.
Lemma solid_at : forall q v w, solid v -> at_ q v = Some w -> solid w.
Proof.
  induction q as [|k q IH]; cbn [at_]; intros v w X E; [congruence|]. destruct (findItem k (items v)) as [u|] eqn:Ef; [|discriminate].
  apply find_is in Ef. apply (IH u w); [exact (solid_item _ _ _ X Ef)|exact E].
Qed.
Lemma basic_loopFree : forall e, basic e -> loopFree e.
Proof.
  induction e as [| |g|sa|sa|sa|a IH|l IH|l IH|r p|n l IH|m v i s IHi IHs|a IH|a IH|k l r IHl IHr] using expr_ind';
    intro X; try exact I; try contradiction.
  - now apply IH.
  - apply basic_and in X. apply loopFree_and. rewrite Forall_forall in *. auto.
  - apply basic_or in X. apply loopFree_or. rewrite Forall_forall in *. auto.
Qed.
Lemma basic_tame : forall doc e, basic e -> solid doc -> tame doc 0 doc e.
Proof.
  intros doc e X HS.
  assert (forall e, opArgs e = [] -> atomTame 0 doc e) as A.
  { intros e' Ho. split; [|split]; [intros q _ w E; apply solid_empty; eapply solid_at; eauto|intros _; now apply solid_empty|].
    cbn [Nat.eqb]. rewrite Ho. intros _ q []. }
  induction e as [| |g|sa|sa|sa|a IH|l IH|l IH|r p|n l IH|m v i s IHi IHs|a IH|a IH|k l r IHl IHr] using expr_ind'; try exact I; try contradiction.
  - now apply IH.
  - apply basic_and in X. apply tame_and. rewrite Forall_forall in *. auto.
  - apply basic_or in X. apply tame_or. rewrite Forall_forall in *. auto.
  - apply A. cbn in X. destruct a; try contradiction; reflexivity.
  - apply A. cbn in X. destruct a; try contradiction; reflexivity.
  - apply A. cbn in X. destruct X as [Xl Xr], l; try contradiction; destruct r; try contradiction; reflexivity.
Qed.
Theorem C19_basic : forall o e w1 doc w2, basic e -> compilable o 0 e -> e <> XFalse ->
  ws w1 -> wf_cst doc -> ws w2 -> readable doc [e] -> distinct doc -> solid doc ->
  answers o [e] (doc_text w1 doc w2) (truth o doc doc e) (truth o doc doc).
Proof.
  intros o e w1 doc w2 HB HC Hn W1 WD W2 Hobj HD HSo. apply C19_loop_free; auto.
  - split; [exists e; split; [now left|auto]|]. split; [repeat constructor; auto|]. repeat constructor.
    generalize (pathsOf 0 (XOr [e])) as P. clear -HB. intro P.
    induction e as [| |g|sa|sa|sa|a IH|l IH|l IH|r p|n l IH|m v i s IHi IHs|a IH|a IH|k l r IHl IHr] using expr_ind'; try exact I; try contradiction.
    + now apply IH.
    + apply basic_and in HB. apply reg_and. rewrite Forall_forall in *. auto.
    + apply basic_or in HB. apply reg_or. rewrite Forall_forall in *. auto.
    + cbn in *. destruct a; try contradiction; exact I.
    + cbn in *. destruct a; try contradiction; exact I.
    + cbn in *. destruct HB as [Xl Xr], l; try contradiction; destruct r; try contradiction; split; exact I.
  - now apply basic_loopFree.
  - now apply basic_tame.
Qed.

(** ** C20: loops *)
Theorem C20_loop : forall o m v q s w1 doc w2, supported o [XLoop m v (XField 0 q) s] ->
  ws w1 -> wf_cst doc -> ws w2 -> benign [XLoop m v (XField 0 q) s] doc ->
  exists b, answers o [XLoop m v (XField 0 q) s] (doc_text w1 doc w2) b (fun _ => b) /\
  match at_ q doc with
  | Some (CArr es _) =>
      match m with
      | LAny => b = true <-> exists e, In e es /\ truth o doc (e_v e) s = true
      | LEvery => b = true <-> forall e, In e es -> truth o doc (e_v e) s = true
      | LAnyEvery => b = true <-> es <> [] /\ forall e, In e es -> truth o doc (e_v e) s = true
      end
  | _ => b = false
  end.
Proof.
  intros o m v q s w1 doc w2 HS W1 WD W2 HB. exists (truth o doc doc (XLoop m v (XField 0 q) s)). split.
  - pose proof (match_truth o _ w1 doc w2 HS W1 WD W2 HB) as X. cbn [existsb] in X. rewrite orb_false_r in X.
    destruct X as (D & ED & X). exists D. split; auto. intros s0 Hs0. destruct (X s0 Hs0) as (f0 & Y). exists f0. intros fuel Hf.
    destruct (Y fuel Hf) as (sf & E1 & E2). exists sf. split; auto. intros i e Hi Hn. rewrite (E2 i e Hi Hn).
    destruct i as [|[|i]]; cbn in Hi; try discriminate. now injection Hi as <-.
  - cbn [truth]. unfold fieldAt. cbn [Nat.eqb]. destruct (at_ q doc) as [[t lx|es w|ms w]|]; auto.
    assert (existsb (fun b => b) (map (fun e => truth o doc (e_v e) s) es) = true <-> exists e, In e es /\ truth o doc (e_v e) s = true) as XE.
    { rewrite existsb_exists. split.
      - intros (b & Hb & ->). apply in_map_iff in Hb as (e & E & He). eauto.
      - intros (e & He & E). exists true. split; auto. apply in_map_iff. eauto. }
    assert (forallb (fun b => b) (map (fun e => truth o doc (e_v e) s) es) = true <-> forall e, In e es -> truth o doc (e_v e) s = true) as XA.
    { rewrite forallb_forall. split.
      - intros X e He. apply X. apply in_map_iff. eauto.
      - intros X b Hb. apply in_map_iff in Hb as (e & <- & He). auto. }
    destruct m; cbn [quant]; auto. rewrite andb_true_iff, XE, XA. split.
    + intros [(e & He & _) X]. split; auto. intros ->. destruct He.
    + intros [X Y]. split; auto. destruct es as [|e es]; [contradiction|]. exists e. split; [now left|]. apply Y. now left.
Qed.

Lemma regular_incl : forall e cv P Q, incl P Q -> regular Q cv e -> regular P cv e.
Proof.
  induction e as [| |g|sa|sa|sa|a IH|l IH|l IH|r p|n l IH|m v i s IHi IHs|a IH|a IH|k l r IHl IHr] using expr_ind'; intros cv P Q HI X; try exact X.
  - cbn [regular] in *. eapply IH; eauto.
  - apply reg_and in X. apply reg_and. rewrite Forall_forall in *. intros x Hx. eapply IH; eauto.
  - apply reg_or in X. apply reg_or. rewrite Forall_forall in *. intros x Hx. eapply IH; eauto.
  - destruct i; try exact X. cbn [regular] in *. destruct X as (X1 & X2). split; auto. intros j r Hj. apply (X1 j r). auto.
Qed.

(** ** C21: each expression has its own answer, the one it has alone *)
Theorem C21_own_answer : forall o es w1 doc w2, supported o es -> ws w1 -> wf_cst doc -> ws w2 -> benign es doc ->
  answers o es (doc_text w1 doc w2) (existsb (truth o doc doc) es) (truth o doc doc)
  /\ forall e, In e es -> e <> XFalse -> answers o [e] (doc_text w1 doc w2) (truth o doc doc e) (truth o doc doc).
Proof.
  intros o es w1 doc w2 HS W1 WD W2 HB. split; [now apply match_truth|]. intros e He Hn.
  pose proof (match_truth o [e] w1 doc w2) as X. cbn [existsb] in X. rewrite orb_false_r in X. apply X; auto.
  - destruct HS as (_ & HC & HR). split; [exists e; split; [now left|auto]|]. rewrite Forall_forall in HC, HR. split; [repeat constructor; auto|].
    apply Forall_cons; [|constructor]. specialize (HR e He).
    assert (incl (pathsOf 0 (XOr [e])) (pathsOf 0 (XOr es))) as HI.
    { intros p Hp. apply paths_in. apply paths_in in Hp. cbn [frefs flat_map] in *. rewrite app_nil_r in Hp. apply in_flat_map. eauto. }
    exact (regular_incl e 0 _ _ HI HR).
  - destruct HB as (H1 & H2 & H3 & H4 & H5). rewrite Forall_forall in H3, H4, H5. split; [eapply readable_one; eauto|]. repeat split; auto; repeat constructor; auto.
Qed.

(** ** C23, C24: documents that the filter cannot tell apart *)
Theorem alike_answers : forall o es w1 doc w2 w1' doc' w2', supported o es ->
  ws w1 -> wf_cst doc -> ws w2 -> ws w1' -> wf_cst doc' -> ws w2' -> readable doc' es -> distinct doc' ->
  benign es doc -> Forall (alike o doc doc' 0 doc doc') es ->
  exists b f, answers o es (doc_text w1 doc w2) b f /\ answers o es (doc_text w1' doc' w2') b f.
Proof.
  intros o es w1 doc w2 w1' doc' w2' HS W1 WD W2 W1' WD' W2' Hobj' HD' HB HA.
  exists (existsb (truth o doc doc) es), (truth o doc doc). split; [now apply match_truth|].
  assert (forall e, In e es -> compilable o 0 e) as HC by (destruct HS as (_ & HC & _); now apply Forall_forall).
  assert (curOk doc 0 doc) as C1 by (intro; reflexivity). assert (curOk doc' 0 doc') as C2 by (intro; reflexivity).
  rewrite Forall_forall in HA.
  assert (forall e, In e es -> truth o doc doc e = truth o doc' doc' e) as HT.
  { intros e He. eapply alike_truth; eauto. }
  assert (benign es doc') as HB'.
  { destruct HB as (_ & _ & H3 & H4 & H5). rewrite Forall_forall in H3, H4, H5. split; [exact Hobj'|]. repeat split; auto; apply Forall_forall; intros e He.
    - exact (alike_tame o doc doc' e 0 doc doc' (HC e He) C1 C2 (HA e He) (H3 e He)).
    - exact (alike_looped o doc doc' e (HC e He) (HA e He) (H4 e He)).
    - exact (alike_fairTop o doc doc' e (HC e He) (HA e He) (H5 e He)). }
  destruct (match_truth o es w1' doc' w2' HS W1' WD' W2' HB') as (D & ED & X). exists D. split; auto.
  intros s0 Hs0. destruct (X s0 Hs0) as (f0 & Y). exists f0. intros fuel Hf. destruct (Y fuel Hf) as (sf & E1 & E2). exists sf.
  assert (existsb (truth o doc' doc') es = existsb (truth o doc doc) es) as EE.
  { clear -HT. induction es as [|e es IH]; auto. cbn [existsb]. rewrite IH by (intros; apply HT; now right). now rewrite HT by now left. }
  rewrite <- EE. split; auto. intros i e Hi Hn. rewrite (E2 i e Hi Hn), HT; auto. eapply nth_error_In; eauto.
Qed.

(** Layout, order of members, spelling of names and literals do not matter, unless
    an array or object is compared. *)
Theorem C23_layout_and_order : forall o es w1 doc w2 w1' doc' w2', supported o es ->
  ws w1 -> wf_cst doc -> ws w2 -> ws w1' -> wf_cst doc' -> ws w2' -> distinct doc' ->
  benign es doc -> eqv o doc doc' -> Forall (scalar doc doc) es ->
  exists b f, answers o es (doc_text w1 doc w2) b f /\ answers o es (doc_text w1' doc' w2') b f.
Proof.
  intros o es w1 doc w2 w1' doc' w2' HS W1 WD W2 W1' WD' W2' HD' HB HE HSc.
  assert (Forall (alike o doc doc' 0 doc doc') es) as HAl.
  { apply Forall_forall. intros e He. rewrite Forall_forall in HSc. destruct HB as (_ & HD & _).
    assert (docOk o doc) by now apply wf_docOk. assert (docOk o doc') by now apply wf_docOk. apply eqv_alike; auto. }
  apply alike_answers; auto.
  - destruct HB as (HRd & _). inversion HE; subst; auto. cbn [readable] in *. destruct HS as (_ & HC & _).
    rewrite Forall_forall in HRd, HC, HAl |- *. intros e He. eapply alike_found; eauto.
Qed.
(** Arrays are compared by their text: whitespace matters. *)
Theorem C23_container_text_refuted : forall o,
  let e := XCmp CEq (fld 0 ["a"]%string) (fld 0 ["b"]%string) in
  run o [e] "{""a"":[1,2],""b"":[1,2]}" = Ok (Some true) /\ run o [e] "{""a"":[1,2],""b"":[1, 2]}" = Ok (Some false).
Proof. intro o. split; vm_compute; reflexivity. Qed.

(** Only the values at the paths of the filter matter. *)
Theorem C24_unreferenced : forall o es w1 doc w2 w1' doc' w2', supported o es ->
  ws w1 -> wf_cst doc -> ws w2 -> ws w1' -> wf_cst doc' -> ws w2' -> readable doc' es -> distinct doc' ->
  emptyC doc = emptyC doc' -> benign es doc ->
  (forall e q, In e es -> In q (pathsOf 0 e) -> at_ q doc = at_ q doc') ->
  exists b f, answers o es (doc_text w1 doc w2) b f /\ answers o es (doc_text w1' doc' w2') b f.
Proof.
  intros o es w1 doc w2 w1' doc' w2' HS W1 WD W2 W1' WD' W2' HR' HD' E HB HP. apply alike_answers; auto.
  - apply Forall_forall. intros e He. destruct HS as (_ & HC & _). rewrite Forall_forall in HC. apply agree_alike; eauto.
    + intro; contradiction.
Qed.

(** ** C28: absent fields *)
Theorem C28_absent : forall o e a w1 doc w2 q, a = XExists e \/ (exists k l r, k <> CNe /\ a = XCmp k l r) ->
  In (0, q) (frefs a) -> at_ q doc = None ->
  ws w1 -> wf_cst doc -> ws w2 -> supported o [a] -> benign [a] doc ->
  answers o [a] (doc_text w1 doc w2) false (fun _ => false)
  /\ answers o [XNot a] (doc_text w1 doc w2) true (fun _ => true)
  /\ match a with
     | XExists x => answers o [XNotExists x] (doc_text w1 doc w2) true (fun _ => true)
     | XCmp CEq l r => answers o [XCmp CNe l r] (doc_text w1 doc w2) true (fun _ => true)
     | _ => True
     end.
Proof.
  intros o e a w1 doc w2 q Ha Hq Hn W1 WD W2 HS HB.
  assert (forall x, allPresent doc doc x = true -> In (0, q) (frefs x) -> False) as P.
  { intros x Hp Hi. unfold allPresent in Hp. rewrite forallb_forall in Hp. specialize (Hp _ Hi). unfold present, fieldAt in Hp. cbn in Hp.
    rewrite Hn in Hp. discriminate. }
  assert (truth o doc doc a = false) as TF.
  { apply not_true_is_false. intro T. destruct Ha as [-> | (k & l & r & Hk & ->)].
    - cbn [truth frefs] in *. eauto.
    - assert (cmpTruth o doc doc k l r = true) as T' by (destruct k; exact T || contradiction).
      unfold cmpTruth in T'. apply andb_true_iff in T' as [T' _]. apply andb_true_iff in T' as [T1 T2]. cbn [frefs] in Hq. apply in_app_or in Hq as [Hq|Hq]; eauto. }
  assert (forall x b, x <> XFalse -> answers o [x] (doc_text w1 doc w2) (existsb (truth o doc doc) [x]) (truth o doc doc) -> truth o doc doc x = b ->
    answers o [x] (doc_text w1 doc w2) b (fun _ => b)) as G.
  { intros x b Hx (D & ED & X) <-. cbn [existsb] in X. rewrite orb_false_r in X. exists D. split; auto. intros s0 Hs0. destruct (X s0 Hs0) as (f0 & Y). exists f0.
    intros fuel Hf. destruct (Y fuel Hf) as (sf & E1 & E2). exists sf. split; auto. intros i y Hi Hy. rewrite (E2 i y Hi Hy).
    destruct i as [|[|i]]; cbn in Hi; try discriminate. now injection Hi as <-. }
  assert (forall x, x <> XFalse -> (compilable o 0 a -> compilable o 0 x) -> (forall P, regular P 0 a -> regular P 0 x) ->
     (tame doc 0 doc a -> tame doc 0 doc x) -> (looped doc a -> looped doc x) -> (fairTop doc a -> fairTop doc x) ->
     frefs x = frefs a -> (readable doc [a] -> readable doc [x]) -> answers o [x] (doc_text w1 doc w2) (existsb (truth o doc doc) [x]) (truth o doc doc)) as M.
  { intros x Hx F1 F2 F3 F4 F5 F6 F7. destruct HS as (_ & HC & HR). destruct HB as (B1 & B2 & B3 & B4 & B5). inversion HC; inversion HR; inversion B3; inversion B4; inversion B5; subst.
    apply match_truth; auto.
    - split; [exists x; split; [now left|auto]|]. split; [repeat constructor; auto|]. repeat constructor. apply F2.
      replace (pathsOf 0 (XOr [x])) with (pathsOf 0 (XOr [a])); auto. unfold pathsOf. cbn [frefs flat_map]. now rewrite F6.
    - split; [now apply F7|]. repeat split; auto; repeat constructor; auto. }
  assert (forall x y, lone 0 x = lone 0 y -> loopsFound doc x = loopsFound doc y -> readable doc [x] -> readable doc [y]) as R.
  { intros x y E1 E2. destruct doc; auto; cbn [readable]; intro X; apply Forall_inv in X; constructor; auto; congruence. }
  assert (a <> XFalse) as Hf by (destruct Ha as [-> | (k & l & r & _ & ->)]; discriminate).
  split; [apply G; auto; apply M; auto|]. split.
  - apply G; [discriminate| |cbn [truth]; now rewrite TF]. apply M; auto; [discriminate|now apply R].
  - destruct Ha as [-> | (k & l & r & Hk & ->)].
    + apply G; [discriminate| |cbn [truth] in *; now rewrite TF]. apply M; auto; [discriminate| |now apply R]. intros HC. cbn [compilable] in *. tauto.
    + destruct k; auto. apply G; [discriminate| |cbn [truth] in *; now rewrite TF]. apply M; auto; [discriminate|now apply R].
Qed.

(** ** C29: one function of the element, whatever its neighbours; it depends only on
    the fields of the document that the body mentions. *)
Theorem C29_independent : forall o m v q s w1 doc w2 es w, supported o [XLoop m v (XField 0 q) s] ->
  ws w1 -> wf_cst doc -> ws w2 -> benign [XLoop m v (XField 0 q) s] doc -> at_ q doc = Some (CArr es w) ->
  exists f : cst -> bool,
    answers o [XLoop m v (XField 0 q) s] (doc_text w1 doc w2) (quant m (map (fun e => f (e_v e)) es)) (fun _ => quant m (map (fun e => f (e_v e)) es))
    /\ forall w1' doc' w2' es' w', ws w1' -> wf_cst doc' -> ws w2' -> benign [XLoop m v (XField 0 q) s] doc' -> at_ q doc' = Some (CArr es' w') ->
       (forall p, In p (pathsOf 0 s) -> at_ p doc' = at_ p doc) ->
       answers o [XLoop m v (XField 0 q) s] (doc_text w1' doc' w2') (quant m (map (fun e => f (e_v e)) es')) (fun _ => quant m (map (fun e => f (e_v e)) es')).
Proof.
  intros o m v q s w1 doc w2 es w HS W1 WD W2 HB Ha. exists (fun x => truth o doc x s).
  assert (forall w1' doc' w2' es' w', ws w1' -> wf_cst doc' -> ws w2' -> benign [XLoop m v (XField 0 q) s] doc' -> at_ q doc' = Some (CArr es' w') ->
       (forall p, In p (pathsOf 0 s) -> at_ p doc' = at_ p doc) ->
       answers o [XLoop m v (XField 0 q) s] (doc_text w1' doc' w2') (quant m (map (fun e => truth o doc (e_v e) s) es')) (fun _ => quant m (map (fun e => truth o doc (e_v e) s) es'))) as X.
  { intros w1' doc' w2' es' w' W1' WD' W2' HB' Ha' HP.
    assert (truth o doc' doc' (XLoop m v (XField 0 q) s) = quant m (map (fun e => truth o doc (e_v e) s) es')) as ET.
    { cbn [truth]. unfold fieldAt. cbn [Nat.eqb]. rewrite Ha'. f_equal. apply map_ext. intro e.
      destruct HS as (_ & HC & _). pose proof (Forall_inv HC) as HC1. cbn [compilable] in HC1. destruct HC1 as (Hv & _ & Hs).
      apply (alike_truth o doc' doc s v); auto; try (intro; contradiction).
      apply agree_alike; auto. intro; contradiction. }
    destruct (match_truth o _ w1' doc' w2' HS W1' WD' W2' HB') as (D & ED & Y). exists D. split; auto. intros s0 Hs0.
    destruct (Y s0 Hs0) as (f0 & Z). exists f0. intros fuel Hf. destruct (Z fuel Hf) as (sf & E1 & E2). exists sf.
    cbn [existsb] in E1. rewrite orb_false_r, ET in E1. split; auto. intros i y Hi Hy. rewrite (E2 i y Hi Hy).
    destruct i as [|[|i]]; cbn in Hi; try discriminate. injection Hi as <-. now rewrite ET. }
  split; [eapply X; eauto|exact X].
Qed.

(** ** C30: a nested TRUE is taken for FALSE *)
Fixpoint falsified (e : expr) : expr :=
  match e with
  | XTrue => XFalse
  | XNot a => XNot (falsified a)
  | XAnd l => XAnd (map falsified l)
  | XOr l => XOr (map falsified l)
  | XLoop m v i s => XLoop m v i (falsified s)
  | _ => e
  end.
Definition falsifiedTop (e : expr) : expr := match e with XTrue => XTrue | _ => falsified e end.

Lemma fetch_falsified : forall e vs fs, fetchRec (falsified e) vs fs = fetchRec e vs fs.
Proof.
  induction e as [| |g|sa|sa|sa|a IH|l IH|l IH|r p|n l IH|m v i s IHi IHs|a IH|a IH|k l r IHl IHr] using expr_ind'; intros vs fs; try reflexivity.
  - cbn [falsified fetchRec]. apply IH.
  - cbn [falsified fetchRec]. rewrite !fetchRec_list. revert fs. induction l as [|x l IHl]; intro fs; auto. inversion IH; subst. cbn [map fetchList].
    rewrite H1. destruct (fetchRec x vs fs); cbn [obind]; auto.
  - cbn [falsified fetchRec]. rewrite !fetchRec_list. revert fs. induction l as [|x l IHl]; intro fs; auto. inversion IH; subst. cbn [map fetchList].
    rewrite H1. destruct (fetchRec x vs fs); cbn [obind]; auto.
  - cbn [falsified fetchRec]. destruct (fetchRec i vs fs); cbn [obind]; auto.
Qed.
Lemma chain_falsified : forall o ty l t, Forall (fun e => forall t, transformOne o (falsified e) t = transformOne o e t) l ->
  transformChain o ty (map falsified l) t = transformChain o ty l t.
Proof.
  intros o ty l t H. revert t. induction l as [|a [|b l] IH]; intro t; auto.
  - inversion H; subst. cbn. auto.
  - inversion H; subst. cbn [map] in *.
    change (transformChain o ty (a :: b :: l) t) with (transformBin ty (transformOne o a) (transformChain o ty (b :: l)) t).
    change (transformChain o ty (falsified a :: falsified b :: map falsified l) t)
      with (transformBin ty (transformOne o (falsified a)) (transformChain o ty (falsified b :: map falsified l)) t).
    unfold transformBin. destruct (openLeft ty t) as [t1| | |]; cbn [obind]; auto. rewrite H2.
    destruct (transformOne o a t1) as [t2| | |]; cbn [obind]; auto. destruct (openRight (t_active t) t2) as [t3| | |]; cbn [obind]; auto.
Qed.
Lemma one_falsified : forall o e t, transformOne o (falsified e) t = transformOne o e t.
Proof.
  intro o. induction e as [| |g|sa|sa|sa|a IH|l IH|l IH|r p|n l IH|m v i s IHi IHs|a IH|a IH|k l r IHl IHr] using expr_ind'; intros t; try reflexivity.
  - cbn [falsified transformOne]. unfold transformNot. destruct (openLeft NNot t); cbn [obind]; auto.
  - cbn [falsified]. rewrite !transformOne_and. now apply chain_falsified.
  - cbn [falsified]. rewrite !transformOne_or. now apply chain_falsified.
  - cbn [falsified transformOne]. unfold transformLoop, pickBaseNode, fetchExprFieldRefs.
    change (fetchRec (XLoop m v i (falsified s)) [] []) with (fetchRec (falsified (XLoop m v i s)) [] []). rewrite fetch_falsified.
    destruct (fetchRec (XLoop m v i s) [] []); cbn [obind]; auto. destruct (resolveRefs t _); cbn [obind]; auto.
    destruct (findBestRoot t _) as [[best na]| | |]; cbn [obind]; auto.
    destruct (getExecNode t best) as [[t1 n]| | |]; cbn [obind]; auto.
    assert (forall t1 b, (do (t2, target) <- makeDataRef o i b t1; do t3 <- openLeft NLoop t2;
        do t5 <- addLoop (setHeap t3 (t_heap t3 ++ [emptyExec])) b (LoopN (t_active (setHeap t3 (t_heap t3 ++ [emptyExec]))) m target (length (t_heap t3)));
        do t6 <- transformOne o (falsified s) (pushContext t5 v (length (t_heap t3))); popContext t6 (length (t_heap t3)))
      = (do (t2, target) <- makeDataRef o i b t1; do t3 <- openLeft NLoop t2;
        do t5 <- addLoop (setHeap t3 (t_heap t3 ++ [emptyExec])) b (LoopN (t_active (setHeap t3 (t_heap t3 ++ [emptyExec]))) m target (length (t_heap t3)));
        do t6 <- transformOne o s (pushContext t5 v (length (t_heap t3))); popContext t6 (length (t_heap t3)))) as X.
    { intros t1' b. destruct (makeDataRef o i b t1') as [[t2 tg]| | |]; cbn [obind]; auto. destruct (openLeft NLoop t2); cbn [obind]; auto.
      destruct (addLoop _ _ _); cbn [obind]; auto. now rewrite IHs. }
    destruct na; [destruct (getAfterNode t1 n); cbn [obind]; auto|cbn [obind]]; apply X.
Qed.
Lemma merge_falsified : forall o l t, transformMerge o (map falsified l) t = transformMerge o l t.
Proof.
  intros o. induction l as [|a [|b l] IH]; intro t; auto.
  - cbn. now rewrite one_falsified.
  - cbn [map] in *. change (transformMerge o (a :: b :: l) t) with
      (let base := t_active t in do t1 <- openLeft NNeor t; do t2 <- transformOne o a t1; do t3 <- openRight base t2; do (t4, ids) <- transformMerge o (b :: l) t3; Ok (t4, t_active t1 :: ids)).
    change (transformMerge o (falsified a :: falsified b :: map falsified l) t) with
      (let base := t_active t in do t1 <- openLeft NNeor t; do t2 <- transformOne o (falsified a) t1; do t3 <- openRight base t2; do (t4, ids) <- transformMerge o (falsified b :: map falsified l) t3; Ok (t4, t_active t1 :: ids)).
    cbv zeta. destruct (openLeft NNeor t) as [t1| | |]; cbn [obind]; auto. rewrite one_falsified.
    destruct (transformOne o a t1) as [t2| | |]; cbn [obind]; auto. destruct (openRight (t_active t) t2) as [t3| | |]; cbn [obind]; auto. now rewrite IH.
Qed.
Lemma const_falsified : forall e, isConst (falsifiedTop e) = isConst e.
Proof. now intros []. Qed.
Lemma gen_falsified : forall es, genExprs (map falsifiedTop es) = map falsified (genExprs es).
Proof.
  induction es as [|e es IH]; auto. unfold genExprs in *. cbn [map filter]. rewrite const_falsified, IH. destruct e; reflexivity.
Qed.
Lemma buckets_falsified : forall es ids, exprBuckets (map falsifiedTop es) ids = exprBuckets es ids.
Proof.
  induction es as [|e es IH]; intro ids; auto. cbn [map exprBuckets]. rewrite const_falsified. destruct (isConst e); [now rewrite IH|].
  destruct ids; now rewrite ?IH.
Qed.
(** Compiled, a TRUE below the top of an expression is the same as a FALSE: same
    definition, so the same behaviour on every text, or the same crash. *)
Theorem C30_nested_true_is_false : forall o es, transform o es = transform o (map falsifiedTop es).
Proof.
  intros o es. unfold transform. rewrite gen_falsified. destruct (genExprs es) as [|g gs]; cbn [map].
  - now rewrite buckets_falsified.
  - change (falsified g :: map falsified gs) with (map falsified (g :: gs)). rewrite merge_falsified.
    destruct (transformMerge o (g :: gs) tr0) as [[t ids]| | |]; cbn [obind]; auto. now rewrite buckets_falsified.
Qed.
(** FALSE keeps its value, and with TRUE read as FALSE the answer is the truth. *)
Theorem C30_constants : forall o es w1 doc w2, supported o (map falsifiedTop es) -> ws w1 -> wf_cst doc -> ws w2 -> benign (map falsifiedTop es) doc ->
  exists D, transform o es = Ok D /\ forall s0, ready o D s0 -> exists f0, forall fuel, f0 <= fuel -> exists s,
    match_ fuel o D (doc_text w1 doc w2) s0 = Ok (s, Some (existsb (fun e => truth o doc doc (falsified e)) es))
    /\ forall i e, nth_error es i = Some e -> e <> XFalse -> expressionMatched D s i = Ok (truth o doc doc (falsified e)).
Proof.
  intros o es w1 doc w2 HS W1 WD W2 HB. destruct (match_truth o _ w1 doc w2 HS W1 WD W2 HB) as (D & ED & X).
  assert (forall e, In e es -> falsifiedTop e = falsified e) as T.
  { intros e He. destruct HS as (_ & _ & HR). rewrite Forall_forall in HR. destruct e; auto. exfalso. apply (HR XTrue). apply in_map_iff. exists XTrue. auto. }
  rewrite <- C30_nested_true_is_false in ED. exists D. split; auto. intros s0 Hs. destruct (X s0 Hs) as (f0 & Y). exists f0. intros fuel Hf.
  destruct (Y fuel Hf) as (s & E1 & E2). exists s. split.
  - rewrite E1. do 3 f_equal. clear -T. induction es as [|e es IH]; auto. cbn [map existsb]. rewrite IH by (intros; apply T; now right). now rewrite T by now left.
  - intros i e Hi Hn. assert (In e es) as He by (eapply nth_error_In; eauto). rewrite (E2 i (falsified e)); auto.
    + erewrite map_nth_error; eauto. f_equal. auto.
    + destruct e; try discriminate; exfalso; [specialize (T XTrue He); discriminate|now apply Hn].
Qed.

(** ** C31: looping over an empty array is fine *)
Theorem C31_empty_loop : forall o m v q s w1 doc w2 w, supported o [XLoop m v (XField 0 q) s] ->
  ws w1 -> wf_cst doc -> ws w2 -> benign [XLoop m v (XField 0 q) s] doc -> at_ q doc = Some (CArr [] w) ->
  answers o [XLoop m v (XField 0 q) s] (doc_text w1 doc w2) (match m with LEvery => true | _ => false end) (fun _ => match m with LEvery => true | _ => false end).
Proof.
  intros o m v q s w1 doc w2 w HS W1 WD W2 HB Ha. destruct (C29_independent o m v q s w1 doc w2 [] w HS W1 WD W2 HB Ha) as (f & X & _).
  cbn [map] in X. now destruct m.
Qed.

(** ** Cases meeting the hypotheses *)
Open Scope string_scope.
(** [not (a = 1 and b.c exists) or add(a, b.c) > 3]. *)
Definition exF1 : expr :=
  XOr [XNot (XAnd [XCmp CEq (fld 0 ["a"]) (ci 1); XExists (fld 0 ["b"; "c"])]);
       XCmp CGt (XFunc (s2b "mathAdd") [fld 0 ["a"]; fld 0 ["b"; "c"]]) (ci 3)].
(** [any and every v in items: (some w in v.tags: w < limit) or not (v.n = 3)]. *)
Definition exF2 : expr :=
  XLoop LAnyEvery 1 (fld 0 ["items"])
    (XOr [XLoop LAny 2 (fld 1 ["tags"]) (XCmp CLt (fld 2 []) (fld 0 ["limit"])); XNot (XCmp CEq (fld 1 ["n"]) (ci 3))]).
Definition exF : list expr := [exF1; exF2; XFalse; XNotExists (fld 0 ["zip"])].
Definition exD : cst :=
  obj [("a", lit "1"); ("b", obj [("c", lit "2"); ("d", obj [])]); ("limit", lit "5");
       ("items", arr [obj [("tags", arr [lit "7"; lit "3"]); ("n", lit "3")]; obj [("n", lit "4"); ("tags", lit "null")]])].
Example exF_supported : forall o, supported o exF.
Proof. intro o. apply supportedb_ok. vm_compute. reflexivity. Qed.
Example exD_ok : wf_cst exD /\ benign exF exD.
Proof. split; [apply wfb_ok|apply benignb_ok]; vm_compute; reflexivity. Qed.
Example exF_truth : forall o, map (truth o exD exD) exF = [false; true; false; true].
Proof. intro o. vm_compute. reflexivity. Qed.
Example match_example : forall o, answers o exF (doc_text [32; 10]%N exD [9]%N) true (truth o exD exD).
Proof.
  intro o. replace true with (existsb (truth o exD exD) exF) by (vm_compute; reflexivity).
  apply match_truth; try apply exD_ok; try apply exF_supported; apply wsb_ok; reflexivity.
Qed.

Example C17_example : forall o, Forall (compilable o 0) exF.
Proof. intro o. apply exF_supported. Qed.
(** C19: a filter with an absent field and a function; a basic one on a solid document. *)
Example C19_example : forall o, supported o [exF1] /\ loopFree exF1 /\ tame exD 0 exD exF1 /\ distinct exD /\ truth o exD exD exF1 = false.
Proof.
  intro o. split; [apply supportedb_ok; vm_compute; reflexivity|]. split; [repeat constructor|]. split; [apply tameb_ok; vm_compute; reflexivity|].
  split; [apply distinctb_ok; vm_compute; reflexivity|vm_compute; reflexivity].
Qed.
Definition exB : expr := XAnd [XNot (XCmp CLt (fld 0 ["a"]) (fld 0 ["nope"])); XCmp CGe (fld 0 ["b"; "c"]) (ci 2); XNotExists (fld 0 ["b"; "x"])].
Definition exBD : cst := obj [("b", obj [("c", lit "2.5")]); ("a", arr [lit "true"])].
Example C19_basic_example : forall o, basic exB /\ compilable o 0 exB /\ wf_cst exBD /\ distinct exBD /\ solid exBD.
Proof.
  intro o. split; [repeat constructor|]. split; [apply compilableb_ok; vm_compute; reflexivity|]. split; [apply wfb_ok; vm_compute; reflexivity|].
  split; [apply distinctb_ok; vm_compute; reflexivity|]. repeat split; discriminate.
Qed.
(** C20, C29: the loop of [exF]; one over an absent field; C31: one over an empty array. *)
Example C20_example : forall o, supported o [exF2] /\ benign [exF2] exD /\ truth o exD exD exF2 = true.
Proof. intro o. split; [apply supportedb_ok; vm_compute; reflexivity|]. split; [apply benignb_ok; vm_compute; reflexivity|vm_compute; reflexivity]. Qed.
Example C20_absent_example : forall o, let e := XLoop LEvery 1 (fld 0 ["nope"]) (XCmp CEq (fld 1 []) (ci 1)) in
  supported o [e] /\ benign [e] exD /\ truth o exD exD e = false.
Proof. intros o e. split; [apply supportedb_ok; vm_compute; reflexivity|]. split; [apply benignb_ok; vm_compute; reflexivity|vm_compute; reflexivity]. Qed.
Example C31_example : forall o, let e := XLoop LEvery 1 (fld 0 ["a"]) (XNot (XCmp CEq (fld 1 []) (ci 1))) in
  let d := obj [("b", lit "1"); ("a", arr [])] in
  supported o [e] /\ benign [e] d /\ at_ [s2b "a"] d = Some (CArr [] []).
Proof. intros o e d. split; [apply supportedb_ok; vm_compute; reflexivity|]. split; [apply benignb_ok; vm_compute; reflexivity|vm_compute; reflexivity]. Qed.
(** C23: other order, other spelling of a name and of a string, whitespace. *)
Definition ex23a : cst := obj [("a", str "xy"); ("b", arr [obj [("n", lit "1"); ("m", lit "2")]])].
Definition ex23b : cst :=
  CObj [mb "b" (CArr [Elt (s2b " ") [] (obj [("m", lit "2"); ("n", lit "1")])] (s2b " ")); mb "a" (str "xy")] (s2b " ").
Definition ex23f : list expr := [XCmp CEq (fld 0 ["a"]) (fld 0 ["c"]); XLoop LAny 1 (fld 0 ["b"]) (XCmp CEq (fld 1 ["n"]) (ci 1))].
Example C23_example : forall o, supported o ex23f /\ benign ex23f ex23a /\ eqv o ex23a ex23b /\ Forall (scalar ex23a ex23a) ex23f /\ wf_cst ex23b /\ distinct ex23b.
Proof.
  intro o. split; [apply supportedb_ok; vm_compute; reflexivity|]. split; [apply benignb_ok; vm_compute; reflexivity|]. split.
  { unfold ex23a, ex23b, obj. eapply (eqv_obj o _ _ [mb "a" (str "xy"); mb "b" (CArr [Elt (s2b " ") [] (obj [("m", lit "2"); ("n", lit "1")])] (s2b " "))]).
    - constructor; [|constructor; [|constructor]].
      + split; [vm_compute; reflexivity|]. apply eqv_lit. vm_compute. reflexivity.
      + split; [vm_compute; reflexivity|]. cbn [mb m_v fst snd]. unfold arr. constructor. constructor; [|constructor]. cbn [e_v]. unfold obj.
        eapply (eqv_obj o _ _ [mb "n" (lit "1"); mb "m" (lit "2")]).
        * repeat constructor.
        * apply perm_swap.
    - apply perm_swap. }
  split.
  { repeat constructor; cbn; repeat intro; repeat match goal with H : _ \/ _ |- _ => destruct H end; try contradiction;
      repeat match goal with H : (_, _) = (_, _) |- _ => injection H as <- <- end; try exact I.
    injection H as <- <-. destruct H0 as [<-|[]]. exact I. }
  split; [apply wfb_ok; vm_compute; reflexivity|apply distinctb_ok; vm_compute; reflexivity].
Qed.
(** C24: [exD] with other things beside the mentioned fields. *)
Definition ex24 : cst :=
  obj [("limit", lit "5"); ("x", arr []); ("b", obj [("c", lit "2")]); ("a", lit "1");
       ("items", arr [obj [("tags", arr [lit "7"; lit "3"]); ("n", lit "3")]; obj [("n", lit "4"); ("tags", lit "null")]])].
Example C24_example : (forall e q, In e exF -> In q (pathsOf 0 e) -> at_ q exD = at_ q ex24) /\ exD <> ex24 /\ wf_cst ex24 /\ distinct ex24.
Proof.
  split.
  { intros e q He Hq. assert (In q (pathsOf 0 (XOr exF))) as Hq' by (eapply pathsOf_sub; eauto).
    vm_compute in Hq'. repeat (destruct Hq' as [<-|Hq']; [vm_compute; reflexivity|]). destruct Hq'. }
  split; [discriminate|]. split; [apply wfb_ok; vm_compute; reflexivity|apply distinctb_ok; vm_compute; reflexivity].
Qed.
Example C28_example : forall o, let a := XCmp CLe (fld 0 ["a"]) (fld 0 ["nope"]) in supported o [a] /\ benign [a] exD /\ at_ [s2b "nope"] exD = None.
Proof. intros o a. split; [apply supportedb_ok; vm_compute; reflexivity|]. split; [apply benignb_ok; vm_compute; reflexivity|vm_compute; reflexivity]. Qed.
Example C30_example : forall o, let es := [XOr [XTrue; XFalse; XExists (fld 0 ["nope"])]] in
  supported o (map falsifiedTop es) /\ benign (map falsifiedTop es) exD /\ map (fun e => truth o exD exD (falsified e)) es = [false].
Proof. intros o es. split; [apply supportedb_ok; vm_compute; reflexivity|]. split; [apply benignb_ok; vm_compute; reflexivity|vm_compute; reflexivity]. Qed.

Print Assumptions C17_compilable_compiles.
Print Assumptions match_truth.
Print Assumptions C19_basic.
Print Assumptions C20_loop.
Print Assumptions C21_own_answer.
Print Assumptions C23_layout_and_order.
Print Assumptions C24_unreferenced.
Print Assumptions C28_absent.
Print Assumptions C29_independent.
Print Assumptions C30_nested_true_is_false.
Print Assumptions C30_constants.
Print Assumptions C31_empty_loop.
