(** Simple filters: final statements (C47, C54-C60). *)
From Coq Require Import String.
From Verif Require Import Base MTokenizer SJson MLit MFastVal MMath SFormula SEvents MExpr MTransform MMatcher SFilter MTree SDoc SSat SSem
  PTree PWf PCheck TReset TMatch SExamples MSimple SSimple PSimpleWords PSimple PSimpleCall PSimpleChain PSimpleFuel PSimpleEnds.
From Verif Require TText.
From Coq Require Import List NArith ZArith Arith Lia Bool.
From Coq Require Import Floats.SpecFloat.
Import ListNotations.
Open Scope nat_scope.

(** What comes of a filter: the same for every amount of fuel that is enough. *)
Definition gives (o : oracles) (text : bytes) (r : outcome expr) : Prop := exists N, forall fuel, N <= fuel -> parseSimple o fuel text = r.
Definition becomes (o : oracles) (text : bytes) (e : expr) : Prop := gives o text (Ok e).
Lemma gives_run : forall o text n r, parseSimple o n text = r -> r <> OutOfFuel -> gives o text r.
Proof. intros o text n r E H. exists n. intros fuel Hf. rewrite <- E. apply (parseSimple_mono o text); auto. now rewrite E. Qed.

(** ** C54: grouping *)
Lemma group_right : forall a r, group true (atomExpr a) r = rightNest a r.
Proof. intros a r. revert a. induction r as [|[j b] r IH]; intro a; [reflexivity|]. cbn [group rightNest negb andb]. now rewrite IH. Qed.
Lemma group_left : forall r e, Forall (fun p => binaryb (snd p) = true) (removelast r) ->
  group false e r = fold_left (fun e p => joinExpr (fst p) e (atomExpr (snd p))) r e.
Proof.
  induction r as [|[j b] r IH]; intros e H; [reflexivity|]. cbn [group negb andb]. destruct r as [|p r].
  - destruct (binaryb b); reflexivity.
  - cbn [removelast] in H. inversion H as [|? ? H1 H2]; subst. cbn [snd] in H1. rewrite H1. now rewrite IH.
Qed.
(** One of the two symbols alone: to the right.  Otherwise to the left, where a test with
    nothing after its operator takes all that follows it along. *)
Theorem C54_grouping : forall o c, chainOk o c ->
  (oneSymbol c -> becomes o (chainText c) (rightNest (ch_first c) (ch_rest c)))
  /\ (~ oneSymbol c -> becomes o (chainText c) (group false (atomExpr (ch_first c)) (ch_rest c)))
  /\ (~ oneSymbol c -> Forall (fun p => binaryb (snd p) = true) (removelast (ch_rest c)) -> becomes o (chainText c) (leftNest (ch_first c) (ch_rest c))).
Proof.
  intros o c HC. destruct (parse_chain o c HC) as [N HN]. pose proof (short_spec c) as HS. split; [|split].
  - intro H. exists N. intros fuel Hf. rewrite HN by auto. apply HS in H. now rewrite H, group_right.
  - intro H. exists N. intros fuel Hf. rewrite HN by auto. destruct (shortCircuit (chainWords c)); [exfalso; apply H; now apply HS|reflexivity].
  - intros H HB. exists N. intros fuel Hf. rewrite HN by auto. destruct (shortCircuit (chainWords c)); [exfalso; apply H; now apply HS|].
    unfold leftNest. now rewrite group_left.
Qed.

(** ** C47, C55, C56: paths and constants *)
Lemma atom_becomes : forall o a, atomOk o a -> becomes o (atomText a) (atomExpr a).
Proof.
  intros o a H. destruct (parse_chain o {| ch_first := a; ch_rest := [] |}) as [N HN]; [split; auto; constructor|].
  exists N. intros fuel Hf. specialize (HN fuel Hf). unfold chainText in HN. cbn [ch_first ch_rest map concat group] in HN. now rewrite app_nil_r in HN.
Qed.
Theorem C47_paths : forall o p, pathOk p -> becomes o (pathText p ++ s2b " EXISTS") (XExists (XField 0 (map segName (sp_segs p) ++ map idxText (sp_idx p)))).
Proof. intros o p HP. apply (atom_becomes o {| a_subj := ALeaf (LPath p); a_test := TExists |}). split; [exact HP|exact I]. Qed.
Theorem C55_strings : forall o p op dbl ws, pathOk p -> valOk o (SStr dbl ws) ->
  becomes o (pathText p ++ [32%N] ++ copText op ++ [32%N] ++ [quote dbl] ++ strText ws ++ [quote dbl])
    (XCmp (copCmp op) (XField 0 (pathOf p)) (XValue (GString (strText ws)))).
Proof. intros o p op dbl ws HP HV. apply (atom_becomes o {| a_subj := ALeaf (LPath p); a_test := TCmp op (SStr dbl ws) |}). split; [exact HP|split; [exact HV|exact I]]. Qed.
Theorem C55_integers : forall o p op (neg : bool) ds, pathOk p -> valOk o (SInt neg ds) ->
  becomes o (pathText p ++ [32%N] ++ copText op ++ [32%N] ++ (if neg then [45%N] else []) ++ ds)
    (XCmp (copCmp op) (XField 0 (pathOf p)) (XValue (GInt (intVal neg ds)))).
Proof. intros o p op neg ds HP HV. apply (atom_becomes o {| a_subj := ALeaf (LPath p); a_test := TCmp op (SInt neg ds) |}). split; [exact HP|split; [exact HV|exact I]]. Qed.
Theorem C55_decimals : forall o p op (neg : bool) ds fs f, pathOk p -> valOk o (SDec neg ds fs f) ->
  becomes o (pathText p ++ [32%N] ++ copText op ++ [32%N] ++ ((if neg then [45%N] else []) ++ ds) ++ 46%N :: fs)
    (XCmp (copCmp op) (XField 0 (pathOf p)) (XValue (GFloat f))).
Proof. intros o p op neg ds fs f HP HV. apply (atom_becomes o {| a_subj := ALeaf (LPath p); a_test := TCmp op (SDec neg ds fs f) |}). split; [exact HP|split; [exact HV|exact I]]. Qed.
Theorem C56_compared : forall o p op (b : bool), pathOk p -> op = PEq \/ op = PEq1 \/ op = PNe ->
  becomes o (pathText p ++ [32%N] ++ copText op ++ [32%N] ++ s2b (if b then "true" else "false"))
    (XCmp (copCmp op) (XField 0 (pathOf p)) (XValue (GBool b))).
Proof. intros o p op b HP HV. apply (atom_becomes o {| a_subj := ALeaf (LPath p); a_test := TCmp op (SBool b) |}). split; [exact HP|split; [exact I|exact HV]]. Qed.

(** ** C60: calls keep their arguments *)
Theorem C60_calls : forall o c op, argOk o c -> isCall c ->
  (forall v, testOk o (TCmp op v) -> becomes o (argText c ++ [32%N] ++ copText op ++ [32%N] ++ valText v) (XCmp (copCmp op) (argExpr c) (XValue (valGo v))))
  /\ (forall p, pathOk p -> becomes o (pathText p ++ [32%N] ++ copText op ++ [32%N] ++ argText c) (XCmp (copCmp op) (XField 0 (pathOf p)) (argExpr c)))
  /\ (forall d, argOk o d -> isCall d -> becomes o (argText d ++ [32%N] ++ copText op ++ [32%N] ++ argText c) (XCmp (copCmp op) (argExpr d) (argExpr c)))
  /\ becomes o (argText c ++ s2b " EXISTS") (XExists (argExpr c)).
Proof.
  intros o c op HO HC. assert (forall d, argOk o d -> isCall d -> subjOk o d) as HS by (intros [l|n f r] Hd Hc; [destruct Hc|exact Hd]). split; [|split; [|split]].
  - intros v HV. apply (atom_becomes o {| a_subj := c; a_test := TCmp op v |}). split; auto.
  - intros p HP. apply (atom_becomes o {| a_subj := ALeaf (LPath p); a_test := TCall op c |}). split; [exact HP|split; auto].
  - intros d Hd Hc. apply (atom_becomes o {| a_subj := d; a_test := TCall op c |}). split; [now apply HS|split; auto].
  - apply (atom_becomes o {| a_subj := c; a_test := TExists |}). split; [now apply HS|exact I].
Qed.

(** ** C57, C58: no crash, no endless loop *)
Theorem C57_chains : forall o c fuel, chainOk o c -> parseSimple o fuel (chainText c) <> Panic /\ parseSimple o fuel (chainText c) <> Err.
Proof.
  intros o c fuel HC. destruct (parse_chain o c HC) as [N HN].
  assert (forall r, r <> OutOfFuel -> parseSimple o fuel (chainText c) = r -> exists e, r = Ok e) as X.
  { intros r Hr E. pose proof (parseSimple_mono o (chainText c) fuel (fuel + N) (Nat.le_add_r _ _)) as M. cbn beta in M. rewrite (HN (fuel + N)) in M by lia. rewrite E in M. rewrite <- M by auto. eauto. }
  split; intro E; [destruct (X Panic) as [e ?]|destruct (X Err) as [e ?]]; congruence.
Qed.
Theorem C58_chains : forall o c, chainOk o c -> exists N e, forall fuel, N <= fuel -> parseSimple o fuel (chainText c) = Ok e.
Proof. intros o c HC. destruct (parse_chain o c HC) as [N HN]. eauto. Qed.

(** Chain or not, well-formed or not: only a quote and both parentheses together can keep the
    parser from ending. *)
Theorem C58_ends : forall o text, (~ In 34%N text /\ ~ In 39%N text) \/ ~ In 40%N text \/ ~ In 41%N text ->
  exists r, r <> OutOfFuel /\ gives o text r.
Proof.
  intros o text H. destruct (parseSimple_ends o text H) as [f E]. exists (parseSimple o f text). split; [exact E|]. now apply (gives_run o text f).
Qed.
Example ex58_ends : forall o, (exists r, r <> OutOfFuel /\ gives o (s2b "((a == 1 || ABS(b >= ))) && c d )") r)
  /\ (exists r, r <> OutOfFuel /\ gives o (s2b "a == ""x) || b == 'y' )") r).
Proof.
  intro o. split; apply C58_ends; [left; split|right; left]; intro H; vm_compute in H; repeat (destruct H as [H|H]; [discriminate|]); exact H.
Qed.

(** ** C59: from the text to the answer *)
Definition chainAtoms (c : schain) : list satom := ch_first c :: map snd (ch_rest c).
Lemma group_all : forall (Q : expr -> Prop), (forall j a b, Q a -> Q b -> Q (joinExpr j a b)) -> forall sh r e, Q e -> Forall (fun p => Q (atomExpr (snd p))) r -> Q (group sh e r).
Proof.
  intros Q HJ sh. induction r as [|[j b] r IH]; intros e He H; [exact He|]. inversion H as [|? ? H1 H2]; subst. cbn [group snd] in *. destruct (negb sh && binaryb b); auto.
Qed.
Definition atomTrue (o : oracles) (doc : cst) (a : satom) : bool := truth o doc doc (atomExpr a).
(** Arguments of calls: legal for the compiler, and the functions return for every argument. *)
Lemma leaf_operandOk : forall o l, operandOk o 0 (leafExpr l).
Proof. intros o [p|[]]; cbn; eauto. Qed.
Lemma arg_operandOk : forall o a, operandOk o 0 (argExpr a).
Proof.
  intros o a. induction a as [l|n f IH r]; [apply leaf_operandOk|]. cbn [argExpr]. apply operandOk_func. split; [exact IH|].
  induction r as [|l r IHr]; [exact I|]. split; [apply leaf_operandOk|exact IHr].
Qed.
Lemma leaf_funsOk : forall l, funsOk (leafExpr l).
Proof. intros [p|v]; exact I. Qed.
Lemma arg_funsOk : forall o a, argOk o a -> funsOk (argExpr a).
Proof.
  intros o a. induction a as [l|n f IH r]; intro H; [apply leaf_funsOk|]. destruct H as (HN & HF & HR & _). cbn [argExpr funsOk]. split.
  - cbn [length]. destruct HN as [[HN ->]|[HN HL]]; [left; split; [|cbn; lia]|right; split; [|rewrite map_length; lia]];
      cbn in HN; repeat (destruct HN as [<- | HN]; [cbn; tauto|]); destruct HN.
  - split; [now apply IH|]. clear. induction r as [|l r IHr]; [exact I|]. split; [apply leaf_funsOk|exact IHr].
Qed.
(** In no single test does one path continue another. *)
Definition atomApart (a : satom) : Prop := prefix_free (pathsOf 0 (atomExpr a)).
Lemma atom_compilable : forall o a, atomOk o a -> atomApart a -> compilable o 0 (atomExpr a).
Proof.
  intros o [p t] [HP HT] HA. unfold atomApart, atomExpr in *. cbn [a_subj a_test] in *. destruct t as [op v|op c|l q re| | | |].
  - split; [apply arg_operandOk|]. split; [destruct v; cbn; eauto|exact HA].
  - split; [apply arg_operandOk|]. split; [apply arg_operandOk|exact HA].
  - destruct HT as (_ & _ & HC). destruct l; (split; [apply arg_operandOk|]); (split; [|exact HA]); cbn; rewrite HC; eauto.
  - split; [apply arg_operandOk|exact HA].
  - split; [reflexivity|]. split; [apply arg_operandOk|exact HA].
  - split; [apply arg_operandOk|]. split; [cbn; eauto|exact HA].
  - split; [apply arg_operandOk|]. split; [cbn; eauto|exact HA].
Qed.
Lemma atom_regular : forall o P a, atomOk o a -> regular P 0 (atomExpr a).
Proof.
  intros o P [p t] [HP HT]. cbn [a_subj a_test] in *. assert (funsOk (argExpr p)) as HF by (destruct p as [[]|]; [exact I|exact I|now apply (arg_funsOk o)]).
  unfold atomExpr. cbn [a_subj a_test]. destruct t as [op v|op c|[] q re| | | |]; cbn; auto. split; auto. apply (arg_funsOk o). apply HT.
Qed.
Lemma atom_loopFree : forall a, loopFree (atomExpr a).
Proof. intros [p [op v|op c|[] q re| | | |]]; exact I. Qed.
(** A path as subject and no call: the path leads to no empty container. *)
Lemma free_one : forall q : list bytes, prefix_free [q].
Proof.
  intros q p k r [<- | []] [H|[]]. apply (f_equal (@length bytes)) in H. rewrite app_length in H. cbn [length] in H. lia.
Qed.
Lemma tame_one : forall doc e q, pathsOf 0 e = [q] -> filled doc q -> atomTame 0 doc e.
Proof.
  intros doc e q E HF. unfold atomTame. rewrite E. split; [intros x [<- | []]; exact HF|]. split; [discriminate|].
  intros (x & y & [<- | []] & [<- | []] & N). contradiction.
Qed.
Lemma plain_fits : forall doc p t, match t with TCall _ _ => False | _ => True end -> filled doc (pathOf p) ->
  atomApart {| a_subj := ALeaf (LPath p); a_test := t |} /\ tame doc 0 doc (atomExpr {| a_subj := ALeaf (LPath p); a_test := t |}).
Proof.
  intros doc p t HT HF. unfold atomApart, atomExpr. cbn [a_subj a_test].
  destruct t as [op v|op c|[] q re| | | |]; try contradiction; (split; [apply free_one|cbn [tame]; apply (tame_one doc _ (pathOf p)); auto; reflexivity]).
Qed.
Lemma join_truth : forall o doc j a b, truth o doc doc (joinExpr j a b) = if isAnd j then truth o doc doc a && truth o doc doc b else truth o doc doc a || truth o doc doc b.
Proof. intros o doc j a b. unfold joinExpr. destruct (isAnd j); cbn [truth forallb existsb]; [now rewrite andb_true_r|now rewrite orb_false_r]. Qed.
Lemma group_and : forall o doc sh r e, Forall (fun p => isAnd (fst p) = true) r ->
  truth o doc doc (group sh e r) = truth o doc doc e && forallb (fun p => atomTrue o doc (snd p)) r.
Proof.
  intros o doc sh. induction r as [|[j b] r IH]; intros e H; [cbn; now rewrite andb_true_r|]. inversion H as [|? ? H1 H2]; subst. cbn [fst] in H1.
  cbn [group forallb snd]. destruct (negb sh && binaryb b); rewrite ?IH, ?join_truth, H1, ?IH by auto; unfold atomTrue; [now rewrite andb_assoc|reflexivity].
Qed.
Lemma group_or : forall o doc sh r e, Forall (fun p => isAnd (fst p) = false) r ->
  truth o doc doc (group sh e r) = truth o doc doc e || existsb (fun p => atomTrue o doc (snd p)) r.
Proof.
  intros o doc sh. induction r as [|[j b] r IH]; intros e H; [cbn; now rewrite orb_false_r|]. inversion H as [|? ? H1 H2]; subst. cbn [fst] in H1.
  cbn [group existsb snd]. destruct (negb sh && binaryb b); rewrite ?IH, ?join_truth, H1, ?IH by auto; unfold atomTrue; [now rewrite orb_assoc|reflexivity].
Qed.
(** The whole way: parse, compile, match. *)
Definition simpleMatch (fuel : nat) (o : oracles) (text doc : bytes) : outcome (option bool) :=
  do e <- parseSimple o fuel text; do D <- transform o [e]; do (s, r) <- match_ fuel o D doc (newMatcher D); Ok r.
Lemma chain_match : forall o c w1 doc w2, chainOk o c -> ws w1 -> wf_cst doc -> ws w2 -> container doc -> distinct doc ->
  Forall (fun a => atomApart a /\ tame doc 0 doc (atomExpr a)) (chainAtoms c) ->
  exists N sh, forall fuel, N <= fuel -> simpleMatch fuel o (chainText c) (doc_text w1 doc w2) = Ok (Some (truth o doc doc (group sh (atomExpr (ch_first c)) (ch_rest c)))).
Proof.
  intros o c w1 doc w2 HC W1 WD W2 HO HD HF. destruct (parse_chain o c HC) as [N HN]. set (sh := shortCircuit (chainWords c)) in *.
  set (e := group sh (atomExpr (ch_first c)) (ch_rest c)) in *. destruct HC as [HA HR]. inversion HF as [|? ? F1 F2]; subst. rewrite Forall_map in F2.
  assert (compilable o 0 e) as C1.
  { apply group_all; [|apply atom_compilable; tauto|].
    2:{ apply Forall_forall. intros x Hx. rewrite Forall_forall in HR, F2. apply atom_compilable; [auto|apply (F2 x Hx)]. }
    intros j a b Ha Hb. unfold joinExpr. destruct (isAnd j); cbn; repeat split; auto; discriminate. }
  assert (forall P, regular P 0 e) as C2.
  { intro P. apply group_all; [|now apply (atom_regular o)|eapply Forall_impl; [|exact HR]; intros; now apply (atom_regular o)]. intros j a b Ha Hb. unfold joinExpr. destruct (isAnd j); cbn; auto. }
  assert (loopFree e) as C3.
  { apply group_all; [|apply atom_loopFree|apply Forall_forall; intros; apply atom_loopFree]. intros j a b Ha Hb. unfold joinExpr. destruct (isAnd j); cbn; auto. }
  assert (tame doc 0 doc e) as C4.
  { apply group_all; [|apply F1|eapply Forall_impl; [|exact F2]; intros x Hx; apply Hx]. intros j a b Ha Hb. unfold joinExpr. destruct (isAnd j); cbn; auto. }
  assert (e <> XFalse) as C5.
  { apply (group_all (fun e => e <> XFalse)); [intros j a b _ _; unfold joinExpr; destruct (isAnd j); discriminate| |apply Forall_forall; intros [j a] _];
      [destruct (ch_first c) as [p [op v|op x|[] q re| | | |]]|destruct a as [p [op v|op x|[] q re| | | |]]]; discriminate. }
  destruct (C19_loop_free o e w1 doc w2) as (D & ED & HM); auto.
  { split; [exists e; split; [now left|exact C5]|]. split; constructor; auto. }
  { now apply loopFree_readable. }
  destruct (HM (newMatcher D)) as [f0 Hf]; [now left|]. exists (N + f0), sh. intros fuel Hfu. unfold simpleMatch. rewrite HN by lia. cbn [obind]. rewrite ED. cbn [obind].
  destruct (Hf fuel) as (s & Es & _); [lia|]. rewrite Es. reflexivity.
Qed.
(** Tests joined by AND only, however spelled and mixed: all must hold. *)
Theorem C59_all : forall o c w1 doc w2, chainOk o c -> Forall (fun p => isAnd (fst p) = true) (ch_rest c) ->
  ws w1 -> wf_cst doc -> ws w2 -> container doc -> distinct doc -> Forall (fun a => atomApart a /\ tame doc 0 doc (atomExpr a)) (chainAtoms c) ->
  exists N, forall fuel, N <= fuel -> simpleMatch fuel o (chainText c) (doc_text w1 doc w2) = Ok (Some (forallb (atomTrue o doc) (chainAtoms c))).
Proof.
  intros o c w1 doc w2 HC HJ W1 WD W2 HO HD HF. destruct (chain_match o c w1 doc w2 HC W1 WD W2 HO HD HF) as (N & sh & H). exists N. intros fuel Hf.
  rewrite H by auto. rewrite group_and by auto. cbn [chainAtoms forallb]. do 2 f_equal. unfold atomTrue at 2. f_equal. clear. induction (ch_rest c) as [|p l IH]; cbn; [reflexivity|now rewrite IH].
Qed.
(** By OR only: one must hold. *)
Theorem C59_any : forall o c w1 doc w2, chainOk o c -> Forall (fun p => isAnd (fst p) = false) (ch_rest c) ->
  ws w1 -> wf_cst doc -> ws w2 -> container doc -> distinct doc -> Forall (fun a => atomApart a /\ tame doc 0 doc (atomExpr a)) (chainAtoms c) ->
  exists N, forall fuel, N <= fuel -> simpleMatch fuel o (chainText c) (doc_text w1 doc w2) = Ok (Some (existsb (atomTrue o doc) (chainAtoms c))).
Proof.
  intros o c w1 doc w2 HC HJ W1 WD W2 HO HD HF. destruct (chain_match o c w1 doc w2 HC W1 WD W2 HO HD HF) as (N & sh & H). exists N. intros fuel Hf.
  rewrite H by auto. rewrite group_or by auto. cbn [chainAtoms existsb]. do 2 f_equal. unfold atomTrue at 2. f_equal. clear. induction (ch_rest c) as [|p l IH]; cbn; [reflexivity|now rewrite IH].
Qed.


(** ** Examples *)
Fixpoint containsb (op w : bytes) : bool := hasPrefix w op || match w with [] => false | _ :: r => containsb op r end.
Lemma containsb_ok : forall op a b, containsb op (a ++ op ++ b) = true.
Proof.
  intros op a b. induction a as [|c a IH]; cbn [app].
  - destruct (op ++ b) as [|c r] eqn:E; cbn [containsb]; rewrite <- E, hasPrefix_app; reflexivity.
  - cbn [containsb]. rewrite IH. apply orb_true_r.
Qed.
Lemma noOps_check : forall w, forallb (fun op => negb (containsb op w)) opTexts = true -> noOps w.
Proof. intros w H op a b HI ->. rewrite forallb_forall in H. specialize (H op HI). now rewrite containsb_ok in H. Qed.
Lemma wordy_check : forall w c, In c w -> (c <? 45)%N || (57 <? c)%N = true -> wordy w.
Proof. intros w c HI H. exists c. split; auto. apply orb_true_iff in H as [H|H]; apply N.ltb_lt in H; unfold digit; lia. Qed.
Ltac bytesOk := repeat (first [apply Forall_nil | apply Forall_cons]); try (let X := fresh in intro X; cbn in X; repeat (destruct X as [X|X]; [discriminate X|]); exact X).
Ltac digits := apply Forall_forall; let c := fresh in let H := fresh in intros c H; cbn in H; unfold digit; repeat (destruct H as [<- | H]; [lia|]); contradiction.
Ltac solidOk := split; [discriminate|bytesOk].
Ltac pathOkTac c := unfold pathOk; cbn [sp_segs sp_idx];
  split; [discriminate|split; [repeat (apply Forall_cons; [split; [discriminate|bytesOk]|]); apply Forall_nil|split; [repeat (apply Forall_cons; [split; [discriminate|split; [digits|discriminate]]|]); apply Forall_nil|
  split; [solidOk|split; [bytesOk|split; [apply noOps_check; vm_compute; reflexivity|split; [apply (wordy_check _ c); [cbn; tauto|reflexivity]|
  cbn; intuition discriminate]]]]]]].
Definition pl (s : string) : spath := {| sp_segs := [SPlain (s2b s)]; sp_idx := [] |}.
Definition cmpA (p : spath) (op : scop) (v : sval) : satom := {| a_subj := ALeaf (LPath p); a_test := TCmp op v |}.
Definition i1 (s : string) : sval := SInt false (s2b s).
(** [a.`b`[3][12] >= -70 && name != 'it is so' && z EXISTS && ok == true] *)
Definition exPath : spath := {| sp_segs := [SPlain (s2b "a"); SQuote (s2b "b")]; sp_idx := [s2b "3"; s2b "12"] |}.
Definition exChain : schain :=
  {| ch_first := cmpA exPath PGe (SInt true (s2b "70"));
     ch_rest := [(JAnd, cmpA (pl "name") PNe (SStr false [s2b "it"; s2b "is"; s2b "so"])); (JAnd, {| a_subj := ALeaf (LPath (pl "z")); a_test := TExists |}); (JAnd, cmpA (pl "ok") PEq (SBool true))] |}.
Definition exChainText : string := "a.`b`[3][12] >= -70 && name != 'it is so' && z EXISTS && ok == true".
(** The same joined by words, with an OR at the end, where grouping is to the left. *)
Definition exChain2 : schain :=
  {| ch_first := cmpA exPath PGe (SInt true (s2b "70"));
     ch_rest := [(JAndW, cmpA (pl "name") PNe (SStr false [s2b "it"; s2b "is"; s2b "so"])); (JOrW, {| a_subj := ALeaf (LPath (pl "z")); a_test := TExists |})] |}.
Lemma exPath_ok : pathOk exPath. Proof. pathOkTac 97%N. Qed.
Lemma exAtom_ok : forall o, atomOk o (cmpA exPath PGe (SInt true (s2b "70"))).
Proof. intro o. split; [exact exPath_ok|]. split; [|exact I]. split; [discriminate|]. split; [digits|]. split; [discriminate|]. vm_compute. split; [discriminate|reflexivity]. Qed.
Lemma exName_ok : forall o, atomOk o (cmpA (pl "name") PNe (SStr false [s2b "it"; s2b "is"; s2b "so"])).
Proof. intro o. split; [pathOkTac 110%N|]. split; [|exact I]. split; [repeat (apply Forall_cons; [solidOk|]); constructor|]. split; [repeat (apply Forall_cons; [bytesOk|]); constructor|bytesOk]. Qed.
Lemma exZ_ok : forall o, atomOk o {| a_subj := ALeaf (LPath (pl "z")); a_test := TExists |}.
Proof. intro o. split; [pathOkTac 122%N|exact I]. Qed.
Lemma exOk_ok : forall o, atomOk o (cmpA (pl "ok") PEq (SBool true)).
Proof. intro o. split; [pathOkTac 111%N|]. split; [exact I|now left]. Qed.
Example C54_example : forall o, chainOk o exChain /\ chainText exChain = s2b exChainText /\ oneSymbol exChain
  /\ chainOk o exChain2 /\ ~ oneSymbol exChain2 /\ Forall (fun p => binaryb (snd p) = true) (removelast (ch_rest exChain2)).
Proof.
  intro o. split; [|split; [|split; [|split; [|split]]]].
  - split; [apply exAtom_ok|]. repeat (apply Forall_cons; [cbn [snd]; first [apply exName_ok|apply exZ_ok|apply exOk_ok]|]); apply Forall_nil.
  - reflexivity.
  - apply short_spec. reflexivity.
  - split; [apply exAtom_ok|]. repeat (apply Forall_cons; [cbn [snd]; first [apply exName_ok|apply exZ_ok|apply exOk_ok]|]); apply Forall_nil.
  - intro H. apply short_spec in H. vm_compute in H. discriminate.
  - repeat constructor.
Qed.
(** Values of the theorems about constants: the ones above, and a fraction. *)
Example C55_example : forall o f, o_parseFloat o (s2b "-1.50") = (f, true) -> valOk o (SDec true (s2b "1") (s2b "50") f) /\ valOk o (SInt true (s2b "70")) /\ valOk o (SStr false [s2b "it"; s2b "is"; s2b "so"]).
Proof.
  intros o f H. split; [|split; [apply exAtom_ok|apply exName_ok]]. split; [discriminate|]. split; [digits|]. split; [discriminate|]. split; [discriminate|].
  split; [digits|exact H].
Qed.
Definition exDoc : cst := obj [("a"%string, obj [("b"%string, arr [lit "0"; lit "0"; lit "0"; arr [lit "0"]])]); ("name"%string, str "x"); ("z"%string, lit "1"); ("ok"%string, lit "true")].
Example C59_example : Forall (fun p => isAnd (fst p) = true) (ch_rest exChain) /\ wf_cst exDoc /\ distinct exDoc
  /\ Forall (fun a => atomApart a /\ tame exDoc 0 exDoc (atomExpr a)) (chainAtoms exChain) /\ map (atomTrue TText.noOracle exDoc) (chainAtoms exChain) = [false; true; true; true].
Proof.
  split; [repeat constructor|]. split; [apply wfb_ok; reflexivity|]. split; [apply distinctb_ok; vm_compute; reflexivity|].
  split; [repeat (apply Forall_cons; [apply plain_fits; [exact I|apply filledb_ok; vm_compute; reflexivity]|]); constructor|vm_compute; reflexivity].
Qed.

(** [POW(ABS(a.b),2) >= SQRT(c) && DATE(x) < DATE("2020-01-01T00:00:00Z")] *)
Definition ab : spath := {| sp_segs := [SPlain (s2b "a"); SPlain (s2b "b")]; sp_idx := [] |}.
Definition f1 (n : string) (p : spath) : sarg := ACall (s2b n) (ALeaf (LPath p)) [].
Definition exPow : sarg := ACall (s2b "POW") (f1 "ABS" ab) [LVal (i1 "2")].
Definition exDate : sarg := ACall (s2b "DATE") (ALeaf (LVal (SStr true [s2b "2020-01-01T00:00:00Z"]))) [].
Definition exCalls : schain :=
  {| ch_first := {| a_subj := exPow; a_test := TCall PGe (f1 "SQRT" (pl "c")) |};
     ch_rest := [(JAnd, {| a_subj := f1 "DATE" (pl "x"); a_test := TCall PLt exDate |})] |}.
Definition exCallsText : string := "POW(ABS(a.b),2) >= SQRT(c) && DATE(x) < DATE(""2020-01-01T00:00:00Z"")".
Definition exDoc2 : cst := obj [("a"%string, obj [("b"%string, lit "7")]); ("c"%string, lit "3"); ("x"%string, str "2019-01-01T00:00:00Z")].
Ltac leafPath c := split; [solidOk|]; split; [bytesOk|]; split; [discriminate|]; split; [repeat (apply Forall_cons; [split; [discriminate|bytesOk]|]); apply Forall_nil|];
  split; [apply Forall_nil|]; split; [apply (wordy_check _ c); [cbn; tauto|reflexivity]|cbn; intuition discriminate].
Lemma exPow_ok : forall o, argOk o exPow.
Proof.
  intro o. split; [right; split; [cbn; tauto|reflexivity]|]. split; [|split; [|exact I]].
  - split; [left; split; [cbn; tauto|reflexivity]|]. split; [leafPath 97%N|]. split; [apply Forall_nil|exact I].
  - apply Forall_cons; [|apply Forall_nil]. split; [solidOk|]. split; [bytesOk|]. split; [|exact I]. split; [discriminate|]. split; [digits|]. split; [discriminate|]. vm_compute. split; [discriminate|reflexivity].
Qed.
Lemma exDate_ok : forall o t, o_parseRFC3339 o (s2b "2020-01-01T00:00:00Z") = Some t -> argOk o exDate.
Proof.
  intros o t Ht. split; [left; split; [cbn; tauto|reflexivity]|]. split; [|split; [apply Forall_nil|intros _; eauto]].
  split; [solidOk|]. split; [bytesOk|]. split; [|cbn; lia]. split; [apply Forall_cons; [solidOk|apply Forall_nil]|]. split; [apply Forall_cons; [bytesOk|apply Forall_nil]|].
  apply (wordy_check _ 84%N); [cbn; tauto|reflexivity].
Qed.
Lemma f1_ok : forall o n p, In (s2b n) (map fst funs1) -> leafOk o (LPath p) -> argOk o (f1 n p).
Proof. intros o n p HN HL. split; [left; auto|]. split; [exact HL|]. split; [apply Forall_nil|exact I]. Qed.
Example C60_example : forall o t, o_parseRFC3339 o (s2b "2020-01-01T00:00:00Z") = Some t ->
  argOk o exPow /\ argOk o exDate /\ chainOk o exCalls /\ chainText exCalls = s2b exCallsText
  /\ argExpr exPow = XFunc (s2b "mathPow") [XFunc (s2b "mathAbs") [XField 0 [s2b "a"; s2b "b"]]; XValue (GInt 2)]
  /\ wf_cst exDoc2 /\ distinct exDoc2 /\ Forall (fun a => atomApart a /\ tame exDoc2 0 exDoc2 (atomExpr a)) (chainAtoms exCalls).
Proof.
  intros o t Ht. split; [apply exPow_ok|]. split; [now apply (exDate_ok o t)|]. split; [|split; [reflexivity|split; [reflexivity|split; [apply wfb_ok; reflexivity|split; [apply distinctb_ok; vm_compute; reflexivity|]]]]].
  - split; [split; [apply exPow_ok|split; [|exact I]]|].
    + apply f1_ok; [cbn; tauto|leafPath 99%N].
    + apply Forall_cons; [|apply Forall_nil]. split; [|split; [now apply (exDate_ok o t)|exact I]]. apply f1_ok; [cbn; tauto|leafPath 120%N].
  - repeat (apply Forall_cons; [split; [apply prefixFreeb_ok; vm_compute; reflexivity|apply tameb_ok; vm_compute; reflexivity]|]). apply Forall_nil.
Qed.

(** ** Where the code does otherwise *)
Definition fA : expr := XField 0 [s2b "a"].
Definition eqI (n : string) (z : Z) : expr := XCmp CEq (XField 0 [s2b n]) (XValue (GInt z)).
Definition runSimple (o : oracles) (text doc : string) : outcome (option bool) := simpleMatch 100 o (s2b text) (s2b doc).
Ltac ran := eapply (gives_run _ _ 100); [vm_compute; reflexivity|discriminate].

(** C54: AND does not bind tighter than OR. *)
Theorem C54_precedence_refuted : forall o,
  becomes o (s2b "a == 1 || b == 2 && c == 3") (XAnd [XOr [eqI "a" 1; eqI "b" 2]; eqI "c" 3])
  /\ truth o (obj [("a"%string, lit "1")]) (obj [("a"%string, lit "1")]) (XOr [eqI "a" 1; XAnd [eqI "b" 2; eqI "c" 3]]) = true
  /\ runSimple o "a == 1 || b == 2 && c == 3" "{""a"":1}" = Ok (Some false).
Proof. intro o. split; [ran|]. split; vm_compute; reflexivity. Qed.
(** The two spellings of an operator are not the same. *)
Theorem C54_spelling_refuted : forall o,
  becomes o (s2b "a == 1 && b == 2 || c == 3") (XOr [XAnd [eqI "a" 1; eqI "b" 2]; eqI "c" 3])
  /\ becomes o (s2b "a == 1 && b == 2 OR c == 3") (XAnd [eqI "a" 1; XOr [eqI "b" 2; eqI "c" 3]])
  /\ runSimple o "a == 1 && b == 2 || c == 3" "{""c"":3}" = Ok (Some true)
  /\ runSimple o "a == 1 && b == 2 OR c == 3" "{""c"":3}" = Ok (Some false).
Proof. intro o. split; [ran|]. split; [ran|]. split; vm_compute; reflexivity. Qed.
(** An operator inside a string constant changes the grouping outside it. *)
Theorem C54_string_refuted : forall o,
  becomes o (s2b "a == ""x y"" OR b == 1 AND c == 2") (XAnd [XOr [XCmp CEq fA (XValue (GString (s2b "x y"))); eqI "b" 1]; eqI "c" 2])
  /\ becomes o (s2b "a == ""x && y"" OR b == 1 AND c == 2") (XOr [XCmp CEq fA (XValue (GString (s2b "x && y"))); XAnd [eqI "b" 1; eqI "c" 2]]).
Proof. intro o. split; ran. Qed.
(** A test for presence takes everything after it along. *)
Theorem C54_presence_refuted : forall o,
  becomes o (s2b "a == 1 AND b EXISTS OR c == 2") (XAnd [eqI "a" 1; XOr [XExists (XField 0 [s2b "b"]); eqI "c" 2]])
  /\ becomes o (s2b "a == 1 AND b == 1 OR c == 2") (XOr [XAnd [eqI "a" 1; eqI "b" 1]; eqI "c" 2]).
Proof. intro o. split; ran. Qed.
(** Parentheses before the same operator are refused. *)
Theorem C54_parens_refuted : forall o,
  gives o (s2b "(a == 1 && b == 2) && c == 3") Err
  /\ becomes o (s2b "(a == 1 && b == 2) || c == 3") (XOr [XAnd [eqI "a" 1; eqI "b" 2]; eqI "c" 3])
  /\ becomes o (s2b "a == 1 && (b == 2 && c == 3)") (XAnd [eqI "a" 1; XAnd [eqI "b" 2; eqI "c" 3]]).
Proof. intro o. split; [ran|]. split; ran. Qed.

(** C47: an index before a name is repeated, an index 0 refused, spaces lost, and names with an
    operator in them are torn apart. *)
Theorem C47_paths_refuted : forall o,
  becomes o (s2b "a[1].b EXISTS") (XExists (XField 0 [s2b "a"; s2b "[1]"; s2b "[1]"; s2b "b"]))
  /\ gives o (s2b "a[0] EXISTS") Err
  /\ becomes o (s2b "`a  b` EXISTS") (XExists (XField 0 [s2b "a b"]))
  /\ gives o (s2b "ORDER EXISTS") Err.
Proof. intro o. split; [ran|]. split; [ran|]. split; ran. Qed.

(** C55: strings that look like numbers are numbers, spaces are lost, and parentheses or a space
    at the start are refused. *)
Theorem C55_strings_refuted : forall o,
  becomes o (s2b "a == ""5""") (XCmp CEq fA (XValue (GInt 5)))
  /\ becomes o (s2b "a == ""it  is""") (XCmp CEq fA (XValue (GString (s2b "it is"))))
  /\ gives o (s2b "a == ""f(x) y""") Err
  /\ gives o (s2b "a == "" x""") Err.
Proof. intro o. split; [ran|]. split; [ran|]. split; ran. Qed.

(** C56: a constant after an operator is dropped, and with it what stood before. *)
Theorem C56_constants_refuted : forall o,
  becomes o (s2b "a == 1 && false") (eqI "a" 1)
  /\ becomes o (s2b "a == 1 || true") (eqI "a" 1)
  /\ becomes o (s2b "a == 1 || true || b == 2") (XOr [XValue (GBool true); eqI "b" 2])
  /\ runSimple o "a == 1 && false" "{""a"":1}" = Ok (Some true)
  /\ runSimple o "a == 1 || true" "{""a"":2}" = Ok (Some false).
Proof. intro o. split; [ran|]. split; [ran|]. split; [ran|]. split; vm_compute; reflexivity. Qed.

(** C57: filters that crash. *)
Theorem C57_crash_refuted : forall o,
  gives o (s2b "a && b") Panic /\ gives o (s2b "a == 1 && (true)") Panic /\ gives o (s2b "ABS(PI()) == 1") Panic.
Proof. intro o. split; [ran|]. split; ran. Qed.

(** C60: the second argument of a call, if a call itself, loses its arguments. *)
Theorem C60_second_refuted : forall o,
  becomes o (s2b "POW(a,ABS(b)) == 1") (XCmp CEq (XFunc (s2b "mathPow") [fA; XFunc (s2b "mathAbs") []]) (XValue (GInt 1))).
Proof. intro o. ran. Qed.

(** C58: a filter that is never done. *)
Definition hangText : bytes := s2b "(a == ""x y) z"")".
Section Hang.
  Variable o : oracles.
  Definition hangs (c : ctx) : Prop := exists n, forall f, n <= f -> parse o f c = OutOfFuel.
  Lemma hang_insert : forall c c1 t ty c2 c3 c4, reads o c (c1, t, ty, SNil) -> checkType c1 ty = (c2, SNil) ->
    insertNode c2 ty t = Ok c3 -> advance c3 = (c4, SNil) -> hangs c4 -> hangs c.
  Proof.
    intros c c1 t ty c2 c3 c4 [n Hr] HC HI HA [m Hp]. exists (S (n + m)). intros [|f] Hf; [lia|]. cbn [parse].
    rewrite Hr by lia. cbn [obind]. rewrite HC, HI. cbn [obind]. rewrite HA. apply Hp. lia.
  Qed.
  Lemma hang_new : forall c c1 t ty c2, reads o c (c1, t, ty, SNil) -> checkType c1 ty = (c2, SNewCtx) -> hangs (withSub c2 (newSub false)) -> hangs c.
  Proof.
    intros c c1 t ty c2 [n Hr] HC [m Hi]. exists (S (n + m)). intros [|f] Hf; [lia|]. cbn [parse].
    rewrite Hr by lia. cbn [obind]. rewrite HC, Hi by lia. reflexivity.
  Qed.
  Lemma hang_token : forall c, (exists n, forall f, n <= f -> getToken o f c = OutOfFuel) -> hangs c.
  Proof. intros c [n H]. exists (S n). intros [|f] Hf; [lia|]. cbn [parse]. rewrite H by lia. reflexivity. Qed.
End Hang.
Ltac sees := exists 5; let f := fresh in let H := fresh in intros f H; do 5 (destruct f as [|f]; [lia|]); cbv; reflexivity.
Theorem C58_endless_refuted : forall o fuel, parseSimple o fuel hangText = OutOfFuel.
Proof.
  intros o fuel. assert (hangs o (startCtx (fields hangText))) as [n H].
  { eapply hang_new; [sees|cbv; reflexivity|]. eapply hang_insert; [sees|cbv; reflexivity|cbv; reflexivity|cbv; reflexivity|].
    eapply hang_insert; [sees|cbv; reflexivity|cbv; reflexivity|cbv; reflexivity|]. apply hang_token. exists 3. intros f Hf. do 3 (destruct f as [|f]; [lia|]).
    cbn -[unfinished]. cbn [unfinished]. cbn -[unfinished]. apply unfinished_stuck; [reflexivity|discriminate|discriminate]. }
  assert (parseSimple o (fuel + n) hangText = OutOfFuel) as HF by (unfold parseSimple; rewrite H by lia; reflexivity).
  destruct (parseSimple o fuel hangText) eqn:E; auto; rewrite <- HF, <- E; symmetry; apply (parseSimple_mono o hangText fuel (fuel + n)); try lia; rewrite E; discriminate.
Qed.

Print Assumptions C47_paths.
Print Assumptions C47_paths_refuted.
Print Assumptions C54_grouping.
Print Assumptions C54_precedence_refuted.
Print Assumptions C54_spelling_refuted.
Print Assumptions C54_string_refuted.
Print Assumptions C54_presence_refuted.
Print Assumptions C54_parens_refuted.
Print Assumptions C55_strings.
Print Assumptions C55_integers.
Print Assumptions C55_decimals.
Print Assumptions C55_strings_refuted.
Print Assumptions C56_compared.
Print Assumptions C56_constants_refuted.
Print Assumptions C57_chains.
Print Assumptions C57_crash_refuted.
Print Assumptions C58_chains.
Print Assumptions C58_ends.
Print Assumptions C58_endless_refuted.
Print Assumptions C59_all.
Print Assumptions C59_any.
Print Assumptions C60_calls.
Print Assumptions C60_second_refuted.
