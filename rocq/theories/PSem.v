(** The three-valued account of the matcher and the textbook meaning agree on benign
    documents; filters do not tell alike documents apart. *)
From Verif Require Import Base MTokenizer SJson MLit MFastVal MMath SFormula SEvents SMerge MBinTree MSession MExpr SCompile MTransform SFilter
  MMatcher MTree SDoc SSat SSem SStatus PTree PTrace PExpr PCompile PPlace PFun PSites PHeap PEval PMatch.
From Coq Require Import List NArith ZArith Arith Lia Bool Permutation.
Import ListNotations.
Open Scope nat_scope.

(** ** Lists of expressions *)
Fixpoint allFair (doc : cst) (neg : bool) (cv : nat) (cur : cst) (l : list expr) : Prop :=
  match l with [] => True | x :: r => fair doc neg cv cur x /\ allFair doc neg cv cur r end.
Lemma fair_and : forall doc neg cv cur l, fair doc neg cv cur (XAnd l) <-> Forall (fair doc neg cv cur) l.
Proof. intros. cbn [fair]. induction l as [|x l IH]; split; intro X; auto; [constructor; tauto|inversion X; subst; tauto]. Qed.
Lemma fair_or : forall doc neg cv cur l, fair doc neg cv cur (XOr l) <-> Forall (fair doc neg cv cur) l.
Proof. intros. cbn [fair]. induction l as [|x l IH]; split; intro X; auto; [constructor; tauto|inversion X; subst; tauto]. Qed.
Lemma fairTop_and : forall doc l, fairTop doc (XAnd l) <-> Forall (fairTop doc) l.
Proof. intros. cbn [fairTop]. induction l as [|x l IH]; split; intro X; auto; [constructor; tauto|inversion X; subst; tauto]. Qed.
Lemma fairTop_or : forall doc l, fairTop doc (XOr l) <-> Forall (fairTop doc) l.
Proof. intros. cbn [fairTop]. induction l as [|x l IH]; split; intro X; auto; [constructor; tauto|inversion X; subst; tauto]. Qed.
Lemma comp_and : forall o cv l, compilable o cv (XAnd l) -> Forall (compilable o cv) l.
Proof. intros o cv l X. apply compilable_and in X as [_ X]. induction l; constructor; cbn in X; tauto. Qed.
Lemma comp_or : forall o cv l, compilable o cv (XOr l) -> Forall (compilable o cv) l.
Proof. intros o cv l X. apply compilable_or in X as [_ X]. induction l; constructor; cbn in X; tauto. Qed.
Lemma reg_and : forall P cv l, regular P cv (XAnd l) <-> Forall (regular P cv) l.
Proof. intros. cbn [regular]. induction l as [|x l IH]; split; intro X; auto; [constructor; tauto|inversion X; subst; tauto]. Qed.
Lemma reg_or : forall P cv l, regular P cv (XOr l) <-> Forall (regular P cv) l.
Proof. intros. cbn [regular]. induction l as [|x l IH]; split; intro X; auto; [constructor; tauto|inversion X; subst; tauto]. Qed.

Section Sem.
  Variable o : oracles.
  (** How comparisons are decided. *)
  Variable hr : rule.
  Variable doc : cst.
  Hypothesis HD : docOk o doc.

  Lemma atom3_eq : forall cv v e, docOk o v -> compilable o cv e -> (exists P, regular P cv e) ->
    (exists a, e = XExists a) \/ (exists k l r, e = XCmp k l r) ->
    atom3By o hr doc cv v e = if missingCur cv v e then None else Some (atomVal o doc hr v e).
  Proof.
    assert (exists T : list node, length T = fsize (structures XFalse [])) as [T HT].
    { destruct (fsize (structures XFalse [])) as [|n] eqn:E; [exists []; reflexivity|]. exists (repeat (Node NLeaf 0 0 0) (S n)). apply repeat_length. }
    exact (atom3_val o XFalse [] T HT doc HD hr).
  Qed.

  Definition atomTruth (cur : cst) (e : expr) : bool :=
    match e with XExists a => allPresent doc cur a | XCmp k l r => cmpTruthBy o hr doc cur k l r | _ => false end.

  Lemma oval_dec : forall cv v e, docOk o v -> operandOk o cv e -> funsOk e -> exists x, oval o doc v e = Ok x.
  Proof.
    assert (exists T : list node, length T = fsize (structures XFalse [])) as [T HT].
    { destruct (fsize (structures XFalse [])) as [|n] eqn:E; [exists []; reflexivity|]. exists (repeat (Node NLeaf 0 0 0) (S n)). apply repeat_length. }
    exact (oval_total o XFalse [] T HT doc HD).
  Qed.

  Lemma frefs_scope : forall cv e r q, operandOk o cv e -> In (r, q) (frefs e) -> r = 0 \/ r = cv.
  Proof.
    intros cv. induction e as [| |g|sa|sa|sa|a IH|l IH|l IH|r p|n l IH|m v i s IHi IHs|a IH|a IH|k l r IHl IHr] using expr_ind';
      intros r' q HP HI; try (cbn in HP; contradiction); try (cbn in HI; contradiction).
    - cbn in HI, HP. destruct HI as [HI|[]]. injection HI as <- <-. exact HP.
    - apply operandOk_func in HP. cbn [frefs] in HI. apply in_flat_map in HI as (x & Hx & HI). rewrite Forall_forall in IH.
      apply (IH x Hx r' q); auto. eapply allOp_in; eauto.
  Qed.

  (** The current element is the document, outside loops. *)
  Definition curOk (cv : nat) (cur : cst) : Prop := cv = 0 -> cur = doc.
  Lemma field_here : forall cv cur q, curOk cv cur -> fieldAt doc cur cv q = at_ q cur.
  Proof. intros cv cur q HC. unfold fieldAt. destruct (Nat.eqb_spec cv 0) as [->|]; auto. now rewrite HC. Qed.
  Lemma paths_in : forall cv e q, In q (pathsOf cv e) <-> In (cv, q) (frefs e).
  Proof.
    intros cv e q. unfold pathsOf. rewrite in_map_iff. split.
    - intros ((r & q') & <- & HI). apply filter_In in HI as [HI E]. cbn in *. apply Nat.eqb_eq in E. now subst.
    - intro HI. exists (cv, q). split; auto. apply filter_In. split; auto. cbn. apply Nat.eqb_refl.
  Qed.

  Lemma not_absent : forall cv cur a, operandOk o cv a -> curOk cv cur ->
    (forall q, In q (pathsOf cv a) -> at_ q cur <> None) -> (cv <> 0 -> forall q, In (0, q) (funFields a) -> at_ q doc <> None) ->
    allPresent doc cur a = negb (absentField doc cur a).
  Proof.
    intros cv cur a HO HC HP HF.
    destruct a as [| |g|sa|sa|sa|a|l|l|r p|n l|m v i s|a|a|k l r]; try (cbn in HO; contradiction); try reflexivity.
    - unfold allPresent. cbn [frefs forallb absentField]. unfold present. cbn [fst snd]. destruct (fieldAt doc cur r p); reflexivity.
    - cbn [absentField negb]. unfold allPresent. apply forallb_forall. intros (r & q) HI.
      assert (fieldAt doc cur r q <> None) as X.
      { destruct (frefs_scope _ _ _ _ HO HI) as [-> | ->].
        - destruct (Nat.eq_dec cv 0) as [->|Hn].
          + rewrite field_here; auto. apply HP. now apply paths_in.
          + unfold fieldAt. cbn [Nat.eqb]. apply HF; auto.
        - rewrite field_here; auto. apply HP. now apply paths_in. }
      unfold present. cbn [fst snd]. destruct (fieldAt doc cur r q); [reflexivity|contradiction].
  Qed.

  Lemma present_no : forall cv cur a q, curOk cv cur -> In (cv, q) (frefs a) -> at_ q cur = None -> allPresent doc cur a = false.
  Proof.
    intros cv cur a q HC HI Ha. apply not_true_is_false. intro X. unfold allPresent in X. rewrite forallb_forall in X. specialize (X _ HI).
    unfold present in X. cbn [fst snd] in X. rewrite (field_here cv cur q HC), Ha in X. discriminate.
  Qed.

  Lemma atom_truth : forall cv cur e, docOk o cur -> compilable o cv e -> (exists P, regular P cv e) -> curOk cv cur ->
    (exists a, e = XExists a) \/ (exists k l r, e = XCmp k l r) -> (cv <> 0 -> steadyAtom doc e) ->
    known_true (atom3By o hr doc cv cur e) = atomTruth cur e
    /\ ((forall q, In q (pathsOf cv e) -> at_ q cur <> None) -> atom3By o hr doc cv cur e = Some (atomTruth cur e)).
  Proof.
    intros cv cur e Dv Hc Hr HC Hk HS.
    assert ((forall q, In q (pathsOf cv e) -> at_ q cur <> None) -> atom3By o hr doc cv cur e = Some (atomTruth cur e)) as X.
    { intro HP. rewrite (atom3_eq cv cur e Dv Hc Hr Hk). rewrite (proj2 (missing_false cv cur e) HP). f_equal.
      destruct Hk as [(a & ->)|(k & l & r & ->)]; cbn [atomVal atomTruth compilable] in *.
      - rewrite (not_absent cv cur a); try tauto; try exact HP; try reflexivity.
      - unfold cmpTruthBy. destruct Hc as (Hl & Hr2 & _).
        rewrite (not_absent cv cur l), (not_absent cv cur r); auto.
        + destruct (absentField doc cur l), (absentField doc cur r); reflexivity.
        + intros q Hq. apply HP. apply paths_in. apply paths_in in Hq. cbn. apply in_or_app. auto.
        + intros Hn q Hq. apply (HS Hn). cbn. apply in_or_app. auto.
        + intros q Hq. apply HP. apply paths_in. apply paths_in in Hq. cbn. apply in_or_app. auto.
        + intros Hn q Hq. apply (HS Hn). cbn. apply in_or_app. auto. }
    split; auto. destruct (missingCur cv cur e) eqn:Em.
    - rewrite (atom3_eq cv cur e Dv Hc Hr Hk), Em. cbn [known_true]. unfold missingCur in Em. apply existsb_exists in Em as (q & Hq & Ha).
      destruct (at_ q cur) eqn:Ea; [discriminate|]. apply paths_in in Hq.
      destruct Hk as [(a & ->)|(k & l & r & ->)]; cbn [atomTruth frefs] in *.
      + symmetry. eapply present_no; eauto.
      + unfold cmpTruthBy. apply in_app_or in Hq as [Hq|Hq].
        * rewrite (present_no cv cur l q); auto.
        * rewrite (present_no cv cur r q); auto. now rewrite andb_false_r.
    - rewrite X by (now apply missing_false). now destruct (atomTruth cur e).
  Qed.

  Lemma kt_and : forall a b, known_true (k_bin BAnd a b) = known_true a && known_true b.
  Proof. now intros [[]|] [[]|]. Qed.
  Lemma kt_or : forall a b, known_true (k_bin BOr a b) = known_true a || known_true b.
  Proof. now intros [[]|] [[]|]. Qed.

  Lemma fair_truth : forall e neg cv cur P, cv <> 0 -> docOk o cur -> compilable o cv e -> regular P cv e -> fair doc neg cv cur e ->
    known_true (sat3By o hr doc cv cur e) = truthBy o hr doc cur e /\ (neg = true -> sat3By o hr doc cv cur e = Some (truthBy o hr doc cur e)).
  Proof.
    induction e as [| |g|sa|sa|sa|a IH|l IH|l IH|r p|n l IH|m v i s IHi IHs|a IH|a IH|k l r IHl IHr] using expr_ind';
      intros neg cv cur P Hn Dv Hc Hr Hf; try (cbn in Hc; contradiction); try (cbn in Hc; exfalso; tauto).
    - cbn [sat3By truthBy]. cbn [compilable regular fair] in *. destruct (IH true cv cur P) as [_ X]; auto. rewrite X; auto.
      cbn. now destruct (truthBy o hr doc cur a).
    - apply comp_and in Hc. apply reg_and in Hr. apply fair_and in Hf. cbn [sat3By truthBy].
      induction l as [|x l IHl]; [now split|]. inversion IH; inversion Hc; inversion Hr; inversion Hf; subst. cbn [forallb].
      destruct (H1 neg cv cur P) as [E1 E2]; auto. destruct IHl as [E3 E4]; auto. split.
      + rewrite kt_and, E1, E3. reflexivity.
      + intro E. rewrite E2, E4 by auto. cbn. now destruct (truthBy o hr doc cur x), (forallb (truthBy o hr doc cur) l).
    - apply comp_or in Hc. apply reg_or in Hr. apply fair_or in Hf. cbn [sat3By truthBy].
      induction l as [|x l IHl]; [now split|]. inversion IH; inversion Hc; inversion Hr; inversion Hf; subst. cbn [existsb].
      destruct (H1 neg cv cur P) as [E1 E2]; auto. destruct IHl as [E3 E4]; auto. split.
      + rewrite kt_or, E1, E3. reflexivity.
      + intro E. rewrite E2, E4 by auto. cbn. now destruct (truthBy o hr doc cur x), (existsb (truthBy o hr doc cur) l).
    - cbn [compilable regular] in Hc, Hr. destruct Hc as (Hv & (q & -> & Hq) & Hs). destruct Hr as (_ & _ & Hr).
      cbn [fair] in Hf. destruct Hf as [Hf1 Hf2]. cbn [sat3By truthBy].
      rewrite (field_here cv cur q) by (intro; contradiction).
      assert (forall es w, at_ q cur = Some (CArr es w) ->
        map (fun e => known_true (sat3By o hr doc v (e_v e) s)) es = map (fun e => truthBy o hr doc (e_v e) s) es) as X.
      { intros es w Ea. apply map_ext_in. intros e He. apply (IHs false v (e_v e) (pathsOf v s)); auto.
        - pose proof (docOk_at o _ _ _ Dv Ea) as Da. eapply docOk_elt; eauto.
        - eapply Hf2; eauto. }
      destruct (at_ q cur) as [[t lx|es w|ms w]|] eqn:Ea; try (split; [reflexivity|intros ->; destruct Hf1 as (? & ? & ?); discriminate]).
      rewrite (X es w eq_refl). cbn. split; [now destruct (quant _ _)|reflexivity].
    - cbn [fair] in Hf. change (sat3By o hr doc cv cur (XExists a)) with (atom3By o hr doc cv cur (XExists a)). change (truthBy o hr doc cur (XExists a)) with (atomTruth cur (XExists a)).
      assert (steadyAtom doc (XExists a)) as HS by (destruct neg; [apply Hf|exact Hf]).
      destruct (atom_truth cv cur (XExists a)) as [X Y]; eauto; [intro; contradiction|]. split; auto. intros ->. apply Y, Hf.
    - assert (forall k, compilable o cv (XCmp k l r)) as Hc' by (intro; exact Hc).
      assert (forall k, exists P, regular P cv (XCmp k l r)) as Hr' by (intro; exists P; exact Hr).
      assert (forall k, k <> CNe -> fair doc neg cv cur (XCmp k l r) -> known_true (atom3By o hr doc cv cur (XCmp k l r)) = atomTruth cur (XCmp k l r)
        /\ (neg = true -> atom3By o hr doc cv cur (XCmp k l r) = Some (atomTruth cur (XCmp k l r)))) as X.
      { intros k' Hk' Hf'. assert (if neg then knownAtom doc cv cur (XCmp k' l r) else steadyAtom doc (XCmp k' l r)) as Hg by (destruct k'; exact Hf' || contradiction).
        destruct (atom_truth cv cur (XCmp k' l r)) as [X Y]; eauto; [intro; contradiction|intro; destruct neg; [apply Hg|exact Hg]|].
        split; [exact X|intros ->; apply Y, Hg]. }
      destruct k; try (apply X; [discriminate|exact Hf]).
      cbn [sat3By truthBy]. cbn [fair] in Hf. destruct (atom_truth cv cur (XCmp CEq l r)) as [X1 Y]; eauto; [intro; contradiction|intro; apply Hf|].
      rewrite Y by apply Hf. cbn [k_not option_map]. split; [cbn; now destruct (cmpTruthBy o hr doc cur CEq l r)|reflexivity].
  Qed.

  Lemma satBy_truth : forall e P, compilable o 0 e -> regular P 0 e -> fairTop doc e -> satBy o hr doc e = truthBy o hr doc doc e.
  Proof.
    assert (curOk 0 doc) as HC by (intro; reflexivity).
    induction e as [| |g|sa|sa|sa|a IH|l IH|l IH|r p|n l IH|m v i s IHi IHs|a IH|a IH|k l r IHl IHr] using expr_ind';
      intros P Hc Hr Hf; try (cbn in Hc; contradiction); try reflexivity.
    - cbn [satBy truthBy]. now rewrite (IH P).
    - apply comp_and in Hc. apply reg_and in Hr. apply fairTop_and in Hf. cbn [satBy truthBy].
      induction l as [|x l IHl]; [reflexivity|]. inversion IH; inversion Hc; inversion Hr; inversion Hf; subst. cbn [forallb].
      rewrite (H1 P) by auto. now rewrite IHl.
    - apply comp_or in Hc. apply reg_or in Hr. apply fairTop_or in Hf. cbn [satBy truthBy].
      induction l as [|x l IHl]; [reflexivity|]. inversion IH; inversion Hc; inversion Hr; inversion Hf; subst. cbn [existsb].
      rewrite (H1 P) by auto. now rewrite IHl.
    - cbn [compilable regular] in Hc, Hr. destruct Hc as (Hv & (q & -> & Hq) & Hs). destruct Hr as (_ & _ & Hr).
      cbn [fairTop] in Hf. cbn [satBy sat3By truthBy]. rewrite (field_here 0 doc q) by auto.
      destruct (at_ q doc) as [[t lx|es w|ms w]|] eqn:Ea; try reflexivity.
      rewrite (map_ext_in _ (fun e => truthBy o hr doc (e_v e) s)); [now destruct (quant _ _)|].
      intros e He. apply (fair_truth s false v (e_v e) (pathsOf v s)); auto.
      + pose proof (docOk_at o _ _ _ HD Ea) as Da. eapply docOk_elt; eauto.
      + eapply Hf; eauto.
    - change (satBy o hr doc (XExists a)) with (known_true (atom3By o hr doc 0 doc (XExists a))).
      apply (atom_truth 0 doc (XExists a) HD Hc (ex_intro _ P Hr) HC); eauto. intro; contradiction.
    - cbn [satBy truthBy]. f_equal. apply (atom_truth 0 doc (XExists a) HD (conj (proj1 (proj2 Hc)) (proj2 (proj2 Hc))) (ex_intro _ P Hr) HC); eauto. intro; contradiction.
    - assert (forall k, compilable o 0 (XCmp k l r)) as Hc' by (intro; exact Hc).
      assert (forall k, exists P, regular P 0 (XCmp k l r)) as Hr' by (intro; exists P; exact Hr).
      assert (forall k, known_true (atom3By o hr doc 0 doc (XCmp k l r)) = cmpTruthBy o hr doc doc k l r) as X.
      { intro k'. apply (atom_truth 0 doc (XCmp k' l r)); eauto; try (intro; contradiction). }
      destruct k; cbn [satBy sat3By truthBy]; rewrite X; reflexivity.
  Qed.
End Sem.
Lemma sat_truth : forall o doc, docOk o doc -> forall e P, compilable o 0 e -> regular P 0 e -> fairTop doc e -> sat o doc e = truth o doc doc e.
Proof. intros o doc HD e P. exact (satBy_truth o (cmpHolds o) doc HD e P). Qed.

(** ** Alike documents *)
Section AlikeProofs.
  Variable o : oracles.
  Variables doc doc' : cst.

  Lemma samePres_none : forall a b, samePres a b -> (a = None <-> b = None).
  Proof. intros [w|] [w'|] X; cbn in X; split; intro; congruence || contradiction. Qed.
  Lemma samePres_filled : forall cur cur' q, samePres (at_ q cur) (at_ q cur') -> filled cur q -> filled cur' q.
  Proof. intros cur cur' q X HF w Ew. rewrite Ew in X. destruct (at_ q cur) as [u|] eqn:Eu; cbn in X; [|contradiction]. rewrite <- X. now apply HF. Qed.

  Lemma alike_and : forall cv cur cur' l, alike o doc doc' cv cur cur' (XAnd l) <-> Forall (alike o doc doc' cv cur cur') l.
  Proof. intros. cbn [alike]. induction l as [|x l IH]; split; intro X; auto; [constructor; tauto|inversion X; subst; tauto]. Qed.
  Lemma alike_or : forall cv cur cur' l, alike o doc doc' cv cur cur' (XOr l) <-> Forall (alike o doc doc' cv cur cur') l.
  Proof. intros. cbn [alike]. induction l as [|x l IH]; split; intro X; auto; [constructor; tauto|inversion X; subst; tauto]. Qed.
  Lemma tame_and : forall d cv cur l, tame d cv cur (XAnd l) <-> Forall (tame d cv cur) l.
  Proof. intros. cbn [tame]. induction l as [|x l IH]; split; intro X; auto; [constructor; tauto|inversion X; subst; tauto]. Qed.
  Lemma tame_or : forall d cv cur l, tame d cv cur (XOr l) <-> Forall (tame d cv cur) l.
  Proof. intros. cbn [tame]. induction l as [|x l IH]; split; intro X; auto; [constructor; tauto|inversion X; subst; tauto]. Qed.
  Lemma looped_and : forall d l, looped d (XAnd l) <-> Forall (looped d) l.
  Proof. intros. cbn [looped]. induction l as [|x l IH]; split; intro X; auto; [constructor; tauto|inversion X; subst; tauto]. Qed.
  Lemma looped_or : forall d l, looped d (XOr l) <-> Forall (looped d) l.
  Proof. intros. cbn [looped]. induction l as [|x l IH]; split; intro X; auto; [constructor; tauto|inversion X; subst; tauto]. Qed.

  Lemma found_and : forall d l, loopsFound d (XAnd l) <-> Forall (loopsFound d) l.
  Proof. intros. cbn [loopsFound]. induction l as [|x l IH]; split; intro X; auto; [constructor; tauto|inversion X; subst; tauto]. Qed.
  Lemma found_or : forall d l, loopsFound d (XOr l) <-> Forall (loopsFound d) l.
  Proof. intros. cbn [loopsFound]. induction l as [|x l IH]; split; intro X; auto; [constructor; tauto|inversion X; subst; tauto]. Qed.

  Lemma atom_pres : forall cv cur cur' e, alikeAtom o doc doc' cv cur cur' e -> forall r q, In (r, q) (frefs e) ->
    samePres (fieldAt doc cur r q) (fieldAt doc' cur' r q).
  Proof.
    intros cv cur cur' e [_ X] r q HI. destruct e as [| |g|sa|sa|sa|a|l|l|r0 p|n l|m v i s|a|a|k l r0]; try (now apply X).
    destruct a as [| |g|sa|sa|sa|a|l|l|r0 p|n l|m v i s|a|a|k l r0]; try (now apply X).
    cbn in HI. destruct HI as [HI|[]]. injection HI as <- <-. exact X.
  Qed.

  (** Operands have the same values. *)
  Lemma oval_alike : forall cur cur' e, (forall r q, In (r, q) (frefs e) -> sameVal o (fieldAt doc cur r q) (fieldAt doc' cur' r q)) ->
    oval o doc cur e = oval o doc' cur' e.
  Proof.
    intros cur cur'. induction e as [| |g|sa|sa|sa|a IH|l IH|l IH|r p|n l IH|m v i s IHi IHs|a IH|a IH|k l r IHl IHr] using expr_ind'; intro X; try reflexivity.
    - cbn [oval]. destruct (X r p) as [X1 X2]; [now left|]. destruct (fieldAt doc cur r p), (fieldAt doc' cur' r p); cbn in X1; try contradiction; auto.
    - cbn [oval]. assert (forall x, In x l -> oval o doc cur x = oval o doc' cur' x) as Y.
      { intros x Hx. rewrite Forall_forall in IH. apply IH; auto. intros r q HI. apply X. cbn [frefs]. apply in_flat_map. eauto. }
      destruct (funLookup n funTable) as [[f|f]|]; auto.
      + destruct l as [|x l]; auto. rewrite (Y x); auto. now left.
      + destruct l as [|x [|y l]]; auto. rewrite (Y x), (Y y); auto; [now right; left|now left].
  Qed.
  Lemma present_alike : forall cur cur' e, (forall r q, In (r, q) (frefs e) -> samePres (fieldAt doc cur r q) (fieldAt doc' cur' r q)) ->
    allPresent doc cur e = allPresent doc' cur' e.
  Proof.
    intros cur cur' e X. unfold allPresent. induction (frefs e) as [|[r q] l IH]; auto. cbn [forallb]. f_equal.
    - unfold present. cbn [fst snd]. specialize (X r q (or_introl eq_refl)). destruct (fieldAt doc cur r q), (fieldAt doc' cur' r q); cbn in X; auto; contradiction.
    - apply IH. intros. apply X. now right.
  Qed.
  Lemma cmp_alike : forall cv cur cur' k k2 l r, alikeAtom o doc doc' cv cur cur' (XCmp k l r) -> cmpTruth o doc cur k2 l r = cmpTruth o doc' cur' k2 l r.
  Proof.
    intros cv cur cur' k k2 l r X. pose proof (atom_pres _ _ _ _ X) as Y. destruct X as [_ X]. cbn [frefs] in X, Y. unfold cmpTruth.
    rewrite (present_alike cur cur' l), (present_alike cur cur' r), (oval_alike cur cur' l), (oval_alike cur cur' r); auto;
      intros; apply X || apply Y; apply in_or_app; auto.
  Qed.

  Theorem alike_truth : forall e cv cur cur', compilable o cv e -> curOk doc cv cur -> curOk doc' cv cur' -> alike o doc doc' cv cur cur' e ->
    truth o doc cur e = truth o doc' cur' e.
  Proof.
    induction e as [| |g|sa|sa|sa|a IH|l IH|l IH|r p|n l IH|m v i s IHi IHs|a IH|a IH|k l r IHl IHr] using expr_ind';
      intros cv cur cur' Hc C1 C2 X; try (cbn in Hc; contradiction); try reflexivity.
    - cbn [truth]. f_equal. eapply IH; eauto.
    - apply comp_and in Hc. apply alike_and in X. cbn [truth]. induction l as [|x l IHl]; auto. inversion IH; inversion Hc; inversion X; subst.
      cbn [forallb]. f_equal; [eapply H1; eauto|auto].
    - apply comp_or in Hc. apply alike_or in X. cbn [truth]. induction l as [|x l IHl]; auto. inversion IH; inversion Hc; inversion X; subst.
      cbn [existsb]. f_equal; [eapply H1; eauto|auto].
    - cbn [compilable] in Hc. destruct Hc as (Hv & (q & -> & Hq) & Hs). cbn [alike] in X. destruct X as (_ & _ & X). cbn [truth].
      rewrite (field_here doc cv cur q C1), (field_here doc' cv cur' q C2).
      destruct (at_ q cur) as [[t lx|es w|ms w]|], (at_ q cur') as [[t' lx'|es' w'|ms' w']|]; try reflexivity; try contradiction.
      f_equal. induction X as [|e e' es es' He X IHX]; auto. cbn [map]. f_equal; auto. eapply IHs; eauto; intro; contradiction.
    - cbn [truth]. apply present_alike. intros r q HI. exact (atom_pres _ _ _ _ X r q HI).
    - cbn [truth]. f_equal. apply present_alike. intros r q HI. exact (atom_pres _ _ _ _ X r q HI).
    - cbn [alike] in X. assert (forall k2, cmpTruth o doc cur k2 l r = cmpTruth o doc' cur' k2 l r) as Y by (intro; eapply cmp_alike; eauto). destruct k; cbn [truth]; now rewrite Y.
  Qed.

  Lemma atom_filled : forall cv cur cur' e, curOk doc cv cur -> curOk doc' cv cur' -> alikeAtom o doc doc' cv cur cur' e ->
    forall q, In q (pathsOf cv e) -> samePres (at_ q cur) (at_ q cur').
  Proof.
    intros cv cur cur' e C1 C2 X q Hq. apply paths_in in Hq. pose proof (atom_pres _ _ _ _ X cv q Hq) as Y.
    now rewrite (field_here doc cv cur q C1), (field_here doc' cv cur' q C2) in Y.
  Qed.
  Lemma argPaths_in : forall cv e q, operandOk o cv e -> cv = 0 -> In q (argPaths e) -> In q (pathsOf 0 e).
  Proof.
    intros cv e q HO -> HI. destruct e; try (cbn in HI; contradiction). cbn [argPaths] in HI. apply in_map_iff in HI as ((r & q') & <- & HI).
    apply paths_in. destruct (frefs_scope o 0 _ r q' HO HI) as [-> | ->]; auto.
  Qed.
  Lemma opArgs_in : forall e q, compilable o 0 e -> (exists a, e = XExists a) \/ (exists k l r, e = XCmp k l r) -> In q (opArgs e) -> In q (pathsOf 0 e).
  Proof.
    intros e q Hc [(a & ->)|(k & l & r & ->)] HI; cbn [opArgs compilable] in *.
    - apply (argPaths_in 0) in HI; [|apply Hc|reflexivity]. apply paths_in in HI. apply paths_in. exact HI.
    - apply paths_in. cbn [frefs]. apply in_or_app. destruct Hc as (Hl & Hr & _). apply in_app_or in HI as [HI|HI]; apply (argPaths_in 0) in HI; try assumption; try reflexivity; apply paths_in in HI; auto.
  Qed.
  Lemma alike_atomTame : forall cv cur cur' e, compilable o cv e -> (exists a, e = XExists a) \/ (exists k l r, e = XCmp k l r) ->
    curOk doc cv cur -> curOk doc' cv cur' -> alikeAtom o doc doc' cv cur cur' e -> atomTame cv cur e -> atomTame cv cur' e.
  Proof.
    intros cv cur cur' e Hc Hk C1 C2 X (T1 & T2 & T3). pose proof (atom_filled _ _ _ _ C1 C2 X) as Y. split; [|split].
    - intros q Hq. eapply samePres_filled; eauto.
    - intro E. rewrite <- (proj1 X E). auto.
    - intros Ht q Hq. assert (In q (pathsOf cv e)) as Hq'.
      { destruct (Nat.eqb_spec cv 0) as [->|]; auto. now apply opArgs_in. }
      intro E. apply (T3 Ht q Hq). now apply (samePres_none _ _ (Y q Hq')).
  Qed.

  Lemma Forall2_in_r : forall (A B : Type) (R : A -> B -> Prop) l l', Forall2 R l l' -> forall b, In b l' -> exists a, In a l /\ R a b.
  Proof. induction 1 as [|a b l l' HR HF IH]; intros x HI; [destruct HI|]. destruct HI as [<-|HI]; [exists a; split; [now left|auto]|]. destruct (IH x HI) as (y & Hy & E). exists y. split; [now right|auto]. Qed.

  Theorem alike_tame : forall e cv cur cur', compilable o cv e -> curOk doc cv cur -> curOk doc' cv cur' -> alike o doc doc' cv cur cur' e ->
    tame doc cv cur e -> tame doc' cv cur' e.
  Proof.
    induction e as [| |g|sa|sa|sa|a IH|l IH|l IH|r p|n l IH|m v i s IHi IHs|a IH|a IH|k l r IHl IHr] using expr_ind';
      intros cv cur cur' Hc C1 C2 X HT; try (cbn in Hc; contradiction); try exact I.
    - cbn [tame] in *. eapply IH; eauto.
    - apply comp_and in Hc. apply alike_and in X. apply tame_and in HT. apply tame_and. rewrite Forall_forall in *. intros x Hx. eapply IH; eauto.
    - apply comp_or in Hc. apply alike_or in X. apply tame_or in HT. apply tame_or. rewrite Forall_forall in *. intros x Hx. eapply IH; eauto.
    - cbn [compilable] in Hc. destruct Hc as (Hv & (q & -> & Hq) & Hs). cbn [alike] in X. destruct X as (XD & XP & X). cbn [tame] in *.
      destruct HT as [T1 T2]. split.
      + intros ->. destruct (T1 eq_refl) as [T3 T4]. split.
        * intros q' Hq'. eapply samePres_filled; eauto.
        * intro Ht. rewrite (C1 eq_refl), (C2 eq_refl) in XP. eapply samePres_filled; eauto.
      + intros es' w' e' Ea He. rewrite Ea in X. destruct (at_ q cur) as [[t lx|es w|ms w]|] eqn:Eq; try contradiction.
        destruct (Forall2_in_r _ _ _ _ _ X e' He) as (e & Hi & R). eapply IHs; eauto; try (intro; contradiction).
    - cbn [tame] in *. eapply alike_atomTame; eauto.
    - cbn [tame] in *. cbn [compilable] in Hc. eapply alike_atomTame; eauto. cbn [compilable]. tauto.
    - cbn [tame] in *. eapply alike_atomTame; eauto.
  Qed.

  Theorem alike_looped : forall e, compilable o 0 e -> alike o doc doc' 0 doc doc' e -> looped doc e -> looped doc' e.
  Proof.
    induction e as [| |g|sa|sa|sa|a IH|l IH|l IH|r p|n l IH|m v i s IHi IHs|a IH|a IH|k l r IHl IHr] using expr_ind';
      intros Hc X HT; try (cbn in Hc; contradiction); try exact I.
    - cbn [looped] in *. eapply IH; eauto.
    - apply comp_and in Hc. apply alike_and in X. apply looped_and in HT. apply looped_and. rewrite Forall_forall in *. intros x Hx. eapply IH; eauto.
    - apply comp_or in Hc. apply alike_or in X. apply looped_or in HT. apply looped_or. rewrite Forall_forall in *. intros x Hx. eapply IH; eauto.
    - cbn [compilable] in Hc. destruct Hc as (Hv & (q & -> & Hq) & Hs). cbn [alike] in X. destruct X as (_ & _ & X). cbn [looped] in *.
      destruct HT as [(es & w & Ea)|HT]; auto. left. rewrite Ea in X. destruct (at_ q doc') as [[t lx|es' w'|ms w']|] eqn:Eq; try contradiction. eauto.
  Qed.

  Theorem alike_found : forall e, compilable o 0 e -> alike o doc doc' 0 doc doc' e -> loopsFound doc e -> loopsFound doc' e.
  Proof.
    induction e as [| |g|sa|sa|sa|a IH|l IH|l IH|r p|n l IH|m v i s IHi IHs|a IH|a IH|k l r IHl IHr] using expr_ind';
      intros Hc X HT; try (cbn in Hc; contradiction); try exact I.
    - cbn [loopsFound] in *. eapply IH; eauto.
    - apply comp_and in Hc. apply alike_and in X. apply found_and in HT. apply found_and. rewrite Forall_forall in *. intros x Hx. eapply IH; eauto.
    - apply comp_or in Hc. apply alike_or in X. apply found_or in HT. apply found_or. rewrite Forall_forall in *. intros x Hx. eapply IH; eauto.
    - cbn [compilable] in Hc. destruct Hc as (Hv & (q & -> & Hq) & Hs). cbn [alike] in X. destruct X as (_ & X & _). cbn [loopsFound] in *.
      intros H2 E. apply (HT H2). now apply (samePres_none _ _ X).
  Qed.

  Lemma steady_alike : forall cv cur cur' e, alikeAtom o doc doc' cv cur cur' e -> steadyAtom doc e -> steadyAtom doc' e.
  Proof.
    intros cv cur cur' e X HS q Hq. pose proof (atom_pres _ _ _ _ X 0 q) as Y.
    assert (In (0, q) (frefs e)) as HI.
    { destruct e as [| |g|sa|sa|sa|a|l|l|r p|n l|m v i s|a|a|k l r]; try (cbn in Hq; contradiction).
      - cbn [opFuns frefs] in *. destruct a; try (cbn in Hq; contradiction). exact Hq.
      - cbn [opFuns frefs] in *. apply in_or_app. apply in_app_or in Hq as [Hq|Hq]; [left; destruct l|right; destruct r]; try (cbn in Hq; contradiction); exact Hq. }
    specialize (Y HI). unfold fieldAt in Y. cbn [Nat.eqb] in Y. intro E. apply (HS q Hq). now apply (samePres_none _ _ Y).
  Qed.
  Lemma known_alike : forall cv cur cur' e, curOk doc cv cur -> curOk doc' cv cur' -> alikeAtom o doc doc' cv cur cur' e -> knownAtom doc cv cur e -> knownAtom doc' cv cur' e.
  Proof.
    intros cv cur cur' e C1 C2 X [K1 K2]. split; [eapply steady_alike; eauto|]. intros q Hq E. apply (K2 q Hq).
    now apply (samePres_none _ _ (atom_filled _ _ _ _ C1 C2 X q Hq)).
  Qed.
  Theorem alike_fair : forall e neg cv cur cur', cv <> 0 -> compilable o cv e -> alike o doc doc' cv cur cur' e ->
    fair doc neg cv cur e -> fair doc' neg cv cur' e.
  Proof.
    induction e as [| |g|sa|sa|sa|a IH|l IH|l IH|r p|n l IH|m v i s IHi IHs|a IH|a IH|k l r IHl IHr] using expr_ind';
      intros neg cv cur cur' Hn Hc X HT; try (cbn in Hc; contradiction); try exact I;
      assert (curOk doc cv cur) as C1 by (intro; contradiction); assert (curOk doc' cv cur') as C2 by (intro; contradiction).
    - cbn [fair] in *. eapply IH; eauto.
    - apply comp_and in Hc. apply alike_and in X. apply fair_and in HT. apply fair_and. rewrite Forall_forall in *. intros x Hx. eapply IH; eauto.
    - apply comp_or in Hc. apply alike_or in X. apply fair_or in HT. apply fair_or. rewrite Forall_forall in *. intros x Hx. eapply IH; eauto.
    - cbn [compilable] in Hc. destruct Hc as (Hv & (q & -> & Hq) & Hs). cbn [alike] in X. destruct X as (_ & _ & X). cbn [fair] in *.
      destruct HT as [T1 T2]. split.
      + destruct neg; auto. destruct T1 as (es & w & Ea). rewrite Ea in X. destruct (at_ q cur') as [[t lx|es' w'|ms w']|] eqn:Eq; try contradiction. eauto.
      + intros es' w' e' Ea He. rewrite Ea in X. destruct (at_ q cur) as [[t lx|es w|ms w]|] eqn:Eq; try contradiction.
        destruct (Forall2_in_r _ _ _ _ _ X e' He) as (e & Hi & R). eapply IHs; eauto.
    - cbn [fair] in *. destruct neg; [eapply known_alike|eapply steady_alike]; eauto.
    - assert (alikeAtom o doc doc' cv cur cur' (XCmp CEq l r)) as X' by exact X.
      destruct k; cbn [fair] in *; try (destruct neg; [eapply known_alike|eapply steady_alike]; eauto). eapply known_alike; eauto.
  Qed.
  Theorem alike_fairTop : forall e, compilable o 0 e -> alike o doc doc' 0 doc doc' e -> fairTop doc e -> fairTop doc' e.
  Proof.
    induction e as [| |g|sa|sa|sa|a IH|l IH|l IH|r p|n l IH|m v i s IHi IHs|a IH|a IH|k l r IHl IHr] using expr_ind';
      intros Hc X HT; try (cbn in Hc; contradiction); try exact I.
    - cbn [fairTop] in *. eapply IH; eauto.
    - apply comp_and in Hc. apply alike_and in X. apply fairTop_and in HT. apply fairTop_and. rewrite Forall_forall in *. intros x Hx. eapply IH; eauto.
    - apply comp_or in Hc. apply alike_or in X. apply fairTop_or in HT. apply fairTop_or. rewrite Forall_forall in *. intros x Hx. eapply IH; eauto.
    - cbn [compilable] in Hc. destruct Hc as (Hv & (q & -> & Hq) & Hs). cbn [alike] in X. destruct X as (_ & _ & X). cbn [fairTop] in *.
      intros es' w' e' Ea He. rewrite Ea in X. destruct (at_ q doc) as [[t lx|es w|ms w]|] eqn:Eq; try contradiction.
      destruct (Forall2_in_r _ _ _ _ _ X e' He) as (e & Hi & R). eapply alike_fair; eauto.
  Qed.
End AlikeProofs.

(** ** Which documents are alike *)
Section Eqv.
  Variable o : oracles.

  Lemma eqv_empty : forall v v', eqv o v v' -> emptyC v = emptyC v'.
  Proof.
    intros v v' [t x t' x' E|es w es' w' F|ms w ms1 ms' w' F HP]; auto.
    - destruct F; reflexivity.
    - destruct F; [apply Permutation_nil in HP; now subst|]. destruct ms'; auto. apply Permutation_sym, Permutation_nil in HP. discriminate.
  Qed.
  Lemma eqv_scalar : forall v v', eqv o v v' -> scalarAt (Some v) -> valOf o v = valOf o v'.
  Proof. intros v v' [t x t' x' E|es w es' w' F|ms w ms1 ms' w' F HP] X; auto; contradiction. Qed.

  Definition eqvO (a b : option cst) : Prop := match a, b with None, None => True | Some w, Some w' => eqv o w w' | _, _ => False end.

  Lemma find_arr : forall es es' i k, Forall2 (fun e e' => eqv o (e_v e) (e_v e')) es es' -> eqvO (findItem k (arrItems i es)) (findItem k (arrItems i es')).
  Proof.
    intros es es' i k F. revert i. induction F as [|e e' es es' He F IH]; intro i; cbn [arrItems findItem]; [exact I|].
    destruct (bytes_eqb k (indexKey i)); [exact He|apply IH].
  Qed.
  Lemma find_some : forall v k w, docOk o v -> In (Ok k, w) (items v) -> findItem k (items v) = Some w.
  Proof. intros v k w HD HI. inversion HD as [? _ (ks & Eks & ND) _]; subst. eapply find_in; eauto. Qed.
  Lemma find_is : forall k l w, findItem k l = Some w -> In (Ok k, w) l.
  Proof.
    induction l as [|[[k'| | |] u] l IH]; cbn [findItem]; intros w X; try discriminate; try (right; now apply IH).
    destruct (bytes_eqb k k') eqn:E; [|right; now apply IH]. apply bytes_eqb_eq in E. injection X as <-. subst. now left.
  Qed.
  Lemma eqv_find : forall v v' k, docOk o v -> docOk o v' -> eqv o v v' -> eqvO (findItem k (items v)) (findItem k (items v')).
  Proof.
    intros v v' k D1 D2 EV. revert D1 D2. destruct EV as [t x t' x' E|es w es' w' F|ms w ms1 ms' w' F HP]; intros D1 D2.
    - exact I.
    - cbn [items]. now apply find_arr.
    -
      assert (forall u, findItem k (items (CObj ms w)) = Some u -> exists u', findItem k (items (CObj ms' w')) = Some u' /\ eqv o u u') as X1.
      { intros u Hu. apply find_is in Hu. cbn [items] in Hu. apply in_map_iff in Hu as (m & Em & Hm).
        assert (exists m', In m' ms1 /\ keyOf (m_kt m) (m_kx m) = keyOf (m_kt m') (m_kx m') /\ eqv o (m_v m) (m_v m')) as (m' & Hm' & Ek & Ev).
        { clear -F Hm. induction F as [|a b l l' HR HF IH]; [destruct Hm|]. destruct Hm as [<-|Hm]; [exists b; split; [now left|auto]|].
          destruct (IH Hm) as (y & Hy & E). exists y. split; [now right|auto]. }
        injection Em as Ek' <-. exists (m_v m'). split; auto. apply find_some; auto. cbn [items]. apply in_map_iff. exists m'. split; [now rewrite <- Ek, Ek'|].
        eapply Permutation_in; eauto. }
      assert (forall u, findItem k (items (CObj ms' w')) = Some u -> exists u', findItem k (items (CObj ms w)) = Some u') as X2.
      { intros u Hu. apply find_is in Hu. cbn [items] in Hu. apply in_map_iff in Hu as (m & Em & Hm).
        apply (Permutation_in _ (Permutation_sym HP)) in Hm. destruct (Forall2_in_r _ _ _ _ _ F m Hm) as (m' & Hm' & Ek & Ev).
        injection Em as Ek' <-. exists (m_v m'). apply find_some; auto. cbn [items]. apply in_map_iff. exists m'. split; [now rewrite Ek, Ek'|auto]. }
      destruct (findItem k (items (CObj ms w))) as [u|] eqn:E1.
      + destruct (X1 u eq_refl) as (u' & -> & Y). exact Y.
      + destruct (findItem k (items (CObj ms' w'))) as [u|] eqn:E2; [|exact I]. destruct (X2 u eq_refl) as (u' & Y). discriminate.
  Qed.
  Lemma eqv_at : forall q v v', docOk o v -> docOk o v' -> eqv o v v' -> eqvO (at_ q v) (at_ q v').
  Proof.
    induction q as [|k q IH]; intros v v' D1 D2 E; cbn [at_]; [exact E|]. pose proof (eqv_find v v' k D1 D2 E) as X.
    destruct (findItem k (items v)) as [u|] eqn:E1, (findItem k (items v')) as [u'|] eqn:E2; cbn [eqvO] in X; try contradiction; try exact I.
    apply IH; auto.
    - apply (docOk_at o [k] v); auto. cbn [at_]. now rewrite E1.
    - apply (docOk_at o [k] v'); auto. cbn [at_]. now rewrite E2.
  Qed.
  Lemma eqvO_pres : forall a b, eqvO a b -> samePres a b.
  Proof. intros [w|] [w'|] X; cbn in *; auto. now apply eqv_empty. Qed.
  Lemma eqvO_val : forall a b, eqvO a b -> scalarAt a -> sameVal o a b.
  Proof. intros a b X HS. split; [now apply eqvO_pres|]. destruct a as [w|], b as [w'|]; cbn in *; auto. now apply eqv_scalar. Qed.

  Lemma scalar_and : forall d cur l, scalar d cur (XAnd l) <-> Forall (scalar d cur) l.
  Proof. intros. cbn [scalar]. induction l as [|x l IH]; split; intro X; auto; [constructor; tauto|inversion X; subst; tauto]. Qed.
  Lemma scalar_or : forall d cur l, scalar d cur (XOr l) <-> Forall (scalar d cur) l.
  Proof. intros. cbn [scalar]. induction l as [|x l IH]; split; intro X; auto; [constructor; tauto|inversion X; subst; tauto]. Qed.

  Theorem eqv_alike : forall doc doc', docOk o doc -> docOk o doc' -> eqv o doc doc' -> forall e cv cur cur', docOk o cur -> docOk o cur' ->
    eqv o cur cur' -> scalar doc cur e -> alike o doc doc' cv cur cur' e.
  Proof.
    intros doc doc' D1 D2 ED. 
    assert (forall cur cur' r q, docOk o cur -> docOk o cur' -> eqv o cur cur' -> eqvO (fieldAt doc cur r q) (fieldAt doc' cur' r q)) as HF.
    { intros cur cur' r q C1 C2 EC. unfold fieldAt. destruct (Nat.eqb r 0); apply eqv_at; auto. }
    assert (forall cv cur cur' e, docOk o cur -> docOk o cur' -> eqv o cur cur' -> scalarAtom doc cur e -> alikeAtom o doc doc' cv cur cur' e) as HA.
    { intros cv cur cur' e C1 C2 EC HS. split; [intros _; now apply eqv_empty|].
      destruct e as [| |g|sa|sa|sa|a|l|l|r p|n l|m v i s|a|a|k l r]; try (intros r' q HI; apply eqvO_val; [now apply HF|now apply HS]).
      destruct a as [| |g|sa|sa|sa|a|l|l|r p|n l|m v i s|a|a|k l r]; try (intros r' q HI; apply eqvO_val; [now apply HF|now apply HS]).
      apply eqvO_pres. now apply HF. }
    induction e as [| |g|sa|sa|sa|a IH|l IH|l IH|r p|n l IH|m v i s IHi IHs|a IH|a IH|k l r IHl IHr] using expr_ind';
      intros cv cur cur' C1 C2 EC HS; try exact I.
    - cbn [alike scalar] in *. now apply IH.
    - apply scalar_and in HS. apply alike_and. rewrite Forall_forall in *. intros x Hx. apply IH; auto.
    - apply scalar_or in HS. apply alike_or. rewrite Forall_forall in *. intros x Hx. apply IH; auto.
    - destruct i as [| |g|sa|sa|sa|a|l|l|r p|n l|m2 v2 i2 s2|a|a|k l r]; try exact I. cbn [alike scalar] in *.
      pose proof (eqv_at p cur cur' C1 C2 EC) as X. split; [|split].
      + intros q' _. apply eqvO_pres. now apply eqv_at.
      + now apply eqvO_pres.
      + destruct (at_ p cur) as [w|] eqn:E1, (at_ p cur') as [w'|] eqn:E2; cbn in X; try contradiction; [|exact I].
        pose proof (docOk_at o _ _ _ C1 E1) as Da. pose proof (docOk_at o _ _ _ C2 E2) as Db.
        revert E1 E2 Da Db. destruct X as [t x t' x' E|es w es' w' F|ms w ms1 ms' w' F HP]; auto. intros E1 E2 Da Db.
        assert (forall e, In e es -> scalar doc (e_v e) s) as HS' by (intros e He; eapply HS; eauto).
        assert (forall e, In e es -> docOk o (e_v e)) as Da' by (intros; eapply docOk_elt; [exact Da|eassumption]).
        assert (forall e, In e es' -> docOk o (e_v e)) as Db' by (intros; eapply docOk_elt; [exact Db|eassumption]).
        clear -F HS' Da' Db' IHs. induction F as [|e e' es es' He F IH]; constructor.
        * apply IHs; auto; [apply Da'; now left|apply Db'; now left|apply HS'; now left].
        * apply IH; intros; [apply HS'|apply Da'|apply Db']; now right.
    - cbn [alike scalar] in *. now apply HA.
    - cbn [alike scalar] in *. now apply HA.
    - cbn [alike scalar] in *. now apply HA.
  Qed.

  (** Documents that agree on the paths of the filter. *)
  Lemma pathsOf_sub : forall e l x v, (e = XAnd l \/ e = XOr l) -> In x l -> incl (pathsOf v x) (pathsOf v e).
  Proof. intros e l x v HE Hx q Hq. apply paths_in. apply paths_in in Hq. destruct HE as [-> | ->]; cbn [frefs]; apply in_flat_map; eauto. Qed.
  Lemma same_refl : forall a, sameVal o a a.
  Proof. intros [w|]; split; cbn; auto. Qed.
  Theorem agree_alike : forall doc doc' e cv cur cur', compilable o cv e -> (forall q, In q (pathsOf 0 e) -> at_ q doc = at_ q doc') ->
    (cv = 0 -> cur = doc /\ cur' = doc' /\ emptyC doc = emptyC doc') -> (cv <> 0 -> cur = cur') -> alike o doc doc' cv cur cur' e.
  Proof.
    intros doc doc'.
    assert (forall cv cur cur' e, (forall r q, In (r, q) (frefs e) -> r = 0 \/ r = cv) -> (forall q, In q (pathsOf 0 e) -> at_ q doc = at_ q doc') ->
      (cv = 0 -> cur = doc /\ cur' = doc' /\ emptyC doc = emptyC doc') -> (cv <> 0 -> cur = cur') -> alikeAtom o doc doc' cv cur cur' e) as HA.
    { intros cv cur cur' e HS HP C1 C2. assert (emptyC cur = emptyC cur') as EC.
      { destruct (Nat.eq_dec cv 0) as [E|E]; [destruct (C1 E) as (-> & -> & ?); auto|now rewrite (C2 E)]. }
      assert (forall r q, In (r, q) (frefs e) -> fieldAt doc cur r q = fieldAt doc' cur' r q) as HF.
      { intros r q HI. assert (r = 0 \/ r <> 0 /\ r = cv) as [-> | (Hr & ->)] by (destruct (HS r q HI), (Nat.eq_dec r 0); auto).
        - unfold fieldAt. cbn [Nat.eqb]. apply HP. now apply paths_in.
        - unfold fieldAt. apply Nat.eqb_neq in Hr as Hr'. rewrite Hr'. now rewrite (C2 Hr). }
      split; auto.
      destruct e as [| |g|sa|sa|sa|a|l|l|r p|n l|m v i s|a|a|k l r]; try (intros r' q HI; rewrite (HF r' q HI); apply same_refl).
      destruct a as [| |g|sa|sa|sa|a|l|l|r p|n l|m v i s|a|a|k l r]; try (intros r' q HI; rewrite (HF r' q HI); apply same_refl).
      rewrite (HF r p (or_introl eq_refl)). apply same_refl. }
    induction e as [| |g|sa|sa|sa|a IH|l IH|l IH|r p|n l IH|m v i s IHi IHs|a IH|a IH|k l r IHl IHr] using expr_ind';
      intros cv cur cur' Hc HP C1 C2; try (cbn in Hc; contradiction); try exact I.
    - cbn [alike compilable] in *. now apply IH.
    - apply comp_and in Hc. apply alike_and. rewrite Forall_forall in *. intros x Hx. apply IH; auto. intros q Hq. apply HP. eapply pathsOf_sub; eauto.
    - apply comp_or in Hc. apply alike_or. rewrite Forall_forall in *. intros x Hx. apply IH; auto. intros q Hq. apply HP. eapply pathsOf_sub; eauto.
    - cbn [compilable] in Hc. destruct Hc as (Hv & (q & -> & Hq) & Hs). cbn [alike].
      assert (forall q', In q' (pathsOf 0 s) -> at_ q' doc = at_ q' doc') as HPs.
      { intros q' Hq'. apply HP. apply paths_in. apply paths_in in Hq'. cbn [frefs]. apply in_or_app. now right. }
      assert (at_ q cur = at_ q cur') as Ea.
      { destruct (Nat.eq_dec cv 0) as [E|E]; [|now rewrite (C2 E)]. destruct (C1 E) as (-> & -> & _). subst cv. apply HP. apply paths_in. cbn. now left. }
      split; [|split].
      + intros q' Hq'. rewrite (HPs q' Hq'). apply same_refl.
      + rewrite Ea. apply same_refl.
      + rewrite Ea. destruct (at_ q cur') as [[t lx|es w|ms w]|]; auto.
        clear Ea. induction es as [|e es IHes]; constructor; auto. apply IHs; auto; intro; contradiction.
    - cbn [alike]. apply HA; auto. intros r q HI. cbn [compilable] in Hc. eapply (frefs_scope o cv a); eauto. apply Hc.
    - cbn [alike]. cbn [compilable] in Hc. apply HA; auto. intros r q HI. eapply (frefs_scope o cv a); eauto. apply Hc.
    - cbn [alike]. cbn [compilable] in Hc. apply HA; auto. intros r' q HI. cbn [frefs] in HI. apply in_app_or in HI as [HI|HI].
      + eapply (frefs_scope o cv l); eauto. apply Hc.
      + eapply (frefs_scope o cv r); eauto. apply Hc.
  Qed.
End Eqv.
