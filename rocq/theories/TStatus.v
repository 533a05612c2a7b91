(** What the status of an answer says (C65). *)
From Coq Require Import String.
From Verif Require Import Base PTokenizer MTokenizer SJson MLit MFastVal MMath SFormula SEvents SMerge MBinTree MSession MExpr SCompile MTransform SFilter
  MMatcher MTree SDoc SSat SSem SStatus PTree PTrace PWf PExpr PCompile PPlace PFun PSites PHeap PEval PMatch PSem PCheck PReset TReset SExamples TMatch.
From Coq Require Import List NArith ZArith Arith Lia Bool SpecFloat.
Import ListNotations.
Open Scope nat_scope.

(** Compiling the expressions and matching the text ends, with the answer [b] and,
    unless the status was raised before, the status [c]. *)
Definition reports (o : oracles) (es : list expr) (txt : bytes) (b c : bool) : Prop :=
  exists D, transform o es = Ok D /\ forall s0, ready o D s0 -> exists f0, forall fuel, f0 <= fuel -> exists s,
    matchWithStatus fuel o D txt s0 = Ok (s, Some b, ms_coll s0 || c).

(** There is one status [c] for the filters and the document.  If it is clear, then
    every way to decide the comparisons of values that cannot be compared as such
    gives each filter the same truth; if it is raised, some comparison in the filters
    has two present operands that cannot be compared as such. *)
Theorem C65_status : forall o es w1 doc w2, supported o es -> ws w1 -> wf_cst doc -> ws w2 -> benign es doc ->
  exists c, reports o es (doc_text w1 doc w2) (existsb (truth o doc doc) es) c
    /\ (c = false -> forall h, lawful o h -> forall e, In e es -> truthBy o h doc doc e = truth o doc doc e)
    /\ (c = true -> exists e, In e es /\ mixed o doc doc e).
Proof.
  intros o es w1 doc w2 HS W1 WD W2 (Hobj & HDi & HT & HL & HF). destruct (gen_reg o es HS) as [Hne HX]. destruct HS as (_ & HC & HR).
  destruct (genExprs es) as [|g gs] eqn:Eg; [contradiction|].
  assert (docOk o doc) as HD by now apply wf_docOk.
  assert (forall h e, In e es -> satBy o h doc e = truthBy o h doc doc e) as ST.
  { intros h e He. rewrite Forall_forall in HC, HR, HF. eapply satBy_truth; eauto. }
  assert (forall e, In e es -> sat o doc e = truth o doc doc e) as ST0 by (intros e He; exact (ST (cmpHolds o) e He)).
  destruct (match_status o es g gs w1 doc w2 Eg) as (D & ED & c & Hc0 & Hc1 & f0 & Hm); auto using num_stop_ws_tail.
  1, 4, 5: rewrite <- Eg; now apply gen_forall.
  2: rewrite <- Eg; now apply gen_readable.
  { rewrite <- Eg. rewrite gen_paths by auto. now apply gen_forall. }
  assert (existsb (sat o doc) (g :: gs) = existsb (truth o doc doc) es) as EX.
  { rewrite <- (gen_exists (truth o doc doc) es), Eg by auto. assert (forall x, In x (g :: gs) -> sat o doc x = truth o doc doc x) as Y.
    { intros x Hx. apply ST0. rewrite <- Eg in Hx. now apply gen_sub. }
    clear -Y. induction (g :: gs) as [|x l IH]; auto. cbn [existsb]. rewrite Y by now left. rewrite IH; auto. intros; apply Y; now right. }
  exists c. split; [|split].
  - exists D. split; auto. intros s0 Hs0. exists f0. intros fuel Hfu. destruct (Hm fuel Hfu) as (s & Es & Ec & _). rewrite EX in Es.
    destruct Hs0 as [-> | (h & Hh & ->)].
    + exists s. unfold matchWithStatus. rewrite Es. cbn [obind newMatcher ms_coll orb]. now rewrite Ec.
    + pose proof (C22_reset_is_fresh o D h fuel (doc_text w1 doc w2) Hh) as X. rewrite Es in X. unfold matchWithStatus.
      destruct (match_ fuel o D (doc_text w1 doc w2) (resetMatcher h)) as [[sr r1]| | |]; try contradiction.
      destruct X as (-> & _ & _ & _ & _ & _ & X). exists sr. cbn [obind]. rewrite X, Ec. reflexivity.
  - intros Hc h HLaw e He. destruct (HX e He) as [Hn | ->]; [|reflexivity]. rewrite <- ST, <- ST0 by auto. apply Hc0; auto.
    rewrite <- Eg. apply filter_In. split; auto. now rewrite Hn.
  - intro Hc. destruct (Hc1 Hc) as (e & He & Hx). exists e. split; auto. rewrite <- Eg in He. now apply gen_sub.
Qed.

(** So if the filters compare only what can be compared as such, a matcher whose
    status was not raised before does not raise it. *)
Theorem C65_all_straight : forall o es w1 doc w2, supported o es -> ws w1 -> wf_cst doc -> ws w2 -> benign es doc ->
  (forall e, In e es -> ~ mixed o doc doc e) -> reports o es (doc_text w1 doc w2) (existsb (truth o doc doc) es) false.
Proof.
  intros o es w1 doc w2 HS W1 WD W2 HB HM. destruct (C65_status o es w1 doc w2 HS W1 WD W2 HB) as (c & HR & _ & Hc).
  destruct c; auto. destruct (Hc eq_refl) as (e & He & Hx). exfalso. exact (HM e He Hx).
Qed.

(** If some way to decide those comparisons changes an answer, the status is raised. *)
Theorem C65_doubt_is_reported : forall o es w1 doc w2 h e, supported o es -> ws w1 -> wf_cst doc -> ws w2 -> benign es doc ->
  lawful o h -> In e es -> truthBy o h doc doc e <> truth o doc doc e -> reports o es (doc_text w1 doc w2) (existsb (truth o doc doc) es) true.
Proof.
  intros o es w1 doc w2 h e HS W1 WD W2 HB HL He Hn. destruct (C65_status o es w1 doc w2 HS W1 WD W2 HB) as (c & HR & Hc & _).
  destruct c; auto. exfalso. apply Hn. now apply (Hc eq_refl).
Qed.

(** A filter that is one comparison: the status says exactly whether its operands
    cannot be compared as such. *)
Theorem C65_single : forall o k l r w1 doc w2 x y, supported o [XCmp k l r] -> ws w1 -> wf_cst doc -> ws w2 -> benign [XCmp k l r] doc ->
  allPresent doc doc l = true -> allPresent doc doc r = true -> oval o doc doc l = Ok x -> oval o doc doc r = Ok y ->
  reports o [XCmp k l r] (doc_text w1 doc w2) (truth o doc doc (XCmp k l r)) (negb (straight o k x y)).
Proof.
  intros o k l r w1 doc w2 x y HS W1 WD W2 HB Pl Pr El Er.
  assert (existsb (truth o doc doc) [XCmp k l r] = truth o doc doc (XCmp k l r)) as EX by (cbn [existsb]; now rewrite orb_false_r).
  rewrite <- EX. destruct (straight o k x y) eqn:Es; cbn [negb].
  - apply C65_all_straight; auto. intros e [<-|[]] (_ & _ & x' & y' & E1 & E2 & Hx). congruence.
  - set (h := fun k x y => if straight o k x y then cmpHolds o k x y else negb (cmpHolds o k x y)).
    assert (lawful o h) as HL by (intros k' x' y' Hx; unfold h; now rewrite Hx).
    apply (C65_doubt_is_reported o _ w1 doc w2 h (XCmp k l r)); auto; [now left|].
    assert (forall k', straight o k' x y = false -> cmpTruthBy o h doc doc k' l r = negb (cmpTruth o doc doc k' l r)) as X.
    { intros k' Hk'. unfold cmpTruthBy, cmpTruth. rewrite Pl, Pr, El, Er. cbn [andb]. unfold h. now rewrite Hk'. }
    destruct k; cbn [truthBy truth]; rewrite X by exact Es;
      match goal with |- context [cmpTruth o doc doc ?k l r] => now destruct (cmpTruth o doc doc k l r) end.
Qed.

(** ** Which values compare as such *)
Lemma shr1_pos : forall m, (0 <= shr_m m)%Z -> (0 <= shr_m (shr_1 m))%Z.
Proof. intros [[|p|p] r s] Hm; cbn in *; try lia; destruct p; cbn; lia. Qed.
Lemma iter_pos_inv : forall (A : Type) (P : A -> Prop) f, (forall x, P x -> P (f x)) -> forall n x, P x -> P (iter_pos f n x).
Proof. intros A P f Hf. induction n as [n IH|n IH|]; intros x Hx; cbn [iter_pos]; auto. Qed.
Lemma shr_pos : forall m e n, (0 <= shr_m m)%Z -> (0 <= shr_m (fst (shr m e n)))%Z.
Proof. intros m e [|p|p] Hm; cbn [shr fst]; auto. now apply (iter_pos_inv _ (fun m => (0 <= shr_m m)%Z) _ shr1_pos). Qed.
Lemma shr_fexp_pos : forall m e l, (0 <= m)%Z -> (0 <= shr_m (fst (shr_fexp 53 1024 m e l)))%Z.
Proof. intros m e l Hm. unfold shr_fexp. apply shr_pos. unfold shr_record_of_loc. destruct l as [|[]]; exact Hm. Qed.
Lemma Z2f_number : forall z, isNaN (Z2f z) = false.
Proof.
  assert (forall s m e, (0 <= m)%Z -> isNaN (binary_round_aux 53 1024 s m e loc_Exact) = false) as X.
  { intros s m e Hm. unfold binary_round_aux. pose proof (shr_fexp_pos m e loc_Exact Hm) as H1.
    destruct (shr_fexp 53 1024 m e loc_Exact) as [m1 e1]. cbn [fst] in H1.
    assert (0 <= round_nearest_even (shr_m m1) (loc_of_shr_record m1))%Z as H2.
    { unfold round_nearest_even. destruct (loc_of_shr_record m1) as [|[]]; try lia. destruct (Z.even (shr_m m1)); lia. }
    pose proof (shr_fexp_pos _ e1 loc_Exact H2) as H3.
    destruct (shr_fexp 53 1024 (round_nearest_even (shr_m m1) (loc_of_shr_record m1)) e1 loc_Exact) as [m2 e2]. cbn [fst] in H3.
    destruct (shr_m m2); [reflexivity| |lia]. destruct (Z.leb e2 (1024 - 53)); reflexivity. }
  intros [|p|p]; [reflexivity| |]; unfold Z2f, binary_normalize, binary_round; match goal with |- context [let (_, _) := ?t in _] => destruct t as [m e] end; now apply X.
Qed.

(** Two values of one kind - null, booleans, numbers, strings, arrays, objects -
    always compare as such.  (Numbers: of a document, or signed constants; not NaN.) *)
Theorem C65_same_kind : forall o k v w, vkindOf (fv v) = vkindOf (fv w) -> vkindOf (fv v) <> None -> k <> CLike -> straight o k v w = true.
Proof.
  assert (forall o v w, vkindOf (fv v) = vkindOf (fv w) -> vkindOf (fv v) <> None -> snd (compare o v w) = true) as X.
  { intros o [v uv] [w uw] E N. cbn [fv] in *.
    assert (forall a b, vkindOf a = Some KNum -> vkindOf b = Some KNum -> snd (compareFloat o a b) = true) as CF.
    { assert (forall a, vkindOf a = Some KNum -> exists x, asFloat o a = (x, true) /\ isNaN x = false) as F.
      { intros [| | | | |n|b|z|b|f|b|b|b|b|t|b|b|b|r|r] Ha; try discriminate; cbn [vkindOf] in Ha.
        - exists (Z2f z). split; [reflexivity|apply Z2f_number].
        - exists f. split; [reflexivity|]. now destruct (isNaN f). }
      intros a b Ha Hb. destruct (F a Ha) as (x & Ea & Hx). destruct (F b Hb) as (y & Eb & Hy). unfold compareFloat. rewrite Ea, Eb, Hx, Hy.
      cbn [orb]. now destruct (fltb _ EPSILON), (fltb x y), (fltb y x). }
    assert (forall a b, isString a = true -> isString b = true -> forall u, snd (compareStrings o a (FV b u)) = true) as CS.
    { intros a b Ha Hb u. unfold compareStrings. cbn [fv]. rewrite Hb. cbn [orb]. destruct a, b; try discriminate; reflexivity. }
    assert (forall a b, snd (compareObjArrData (VArray a) b) = true /\ snd (compareObjArrData (VObject a) b) = true) as CO.
    { intros a b. cbn [compareObjArrData]. destruct (Nat.ltb (length (sliceData b)) (length a)), (Nat.ltb (length a) (length (sliceData b))); auto. }
    assert (forall t : Z * bool, snd (let '(r, ok) := t in ((- r)%Z, ok)) = snd t) as NG by now intros [].
    unfold compare, compareUserDefined, reverseCompare, compareInternal, compareNumerics. cbn [fv userDefined].
    destruct v, w; cbn [vkindOf] in E, N; try congruence;
      try (destruct (isNaN f) eqn:N1); try (destruct (isNaN f0) eqn:N2); try congruence; cbn - [compareFloat compareStrings compareObjArrData];
      destruct uv, uw; cbn - [compareFloat compareStrings compareObjArrData];
      rewrite ?NG; first [reflexivity|apply CS; reflexivity|apply CO|apply CF; cbn [vkindOf]; repeat match goal with Hn : isNaN _ = false |- _ => rewrite Hn end; reflexivity]. }
  intros o k v w E N Hk. specialize (X o v w E N). unfold straight, equals. destruct (compare o v w) as [r ok]. cbn [snd] in *. destruct k; auto; contradiction.
Qed.

(** An array or object and a value of another kind, null apart, never do. *)
Theorem C65_container : forall o k v w, vkindOf (fv v) = Some KArr \/ vkindOf (fv v) = Some KObj -> vkindOf (fv w) <> vkindOf (fv v) ->
  vkindOf (fv w) <> Some KNull -> vkindOf (fv w) <> None -> k <> CLike -> straight o k v w = false /\ straight o k w v = false.
Proof.
  assert (forall o v w, vkindOf (fv v) = Some KArr \/ vkindOf (fv v) = Some KObj -> vkindOf (fv w) <> vkindOf (fv v) ->
    vkindOf (fv w) <> Some KNull -> vkindOf (fv w) <> None -> snd (compare o v w) = false /\ snd (compare o w v) = false) as X.
  { intros o [v uv] [w uw] Hv Hw Hn Hs. cbn [fv] in *. unfold compare, compareUserDefined. cbn [fv userDefined].
    destruct v; cbn [vkindOf] in Hv; try (destruct (isNaN f)); destruct Hv as [Hv|Hv]; try discriminate;
      destruct w; cbn [vkindOf] in Hw, Hn, Hs; try congruence; destruct uv, uw; split; reflexivity. }
  intros o k v w Hv Hw Hn Hs Hk. destruct (X o v w Hv Hw Hn Hs) as [X1 X2]. unfold straight, equals.
  destruct (compare o v w) as [r1 ok1], (compare o w v) as [r2 ok2]. cbn [snd] in *. destruct k; auto; contradiction.
Qed.

(** An unsigned constant above the signed range and a negative number are numbers,
    and yet are not compared as such; nor is zero with an unsigned constant. *)
Theorem C65_unsigned_refuted : forall o, exists v w, isNumeric (fv v) = true /\ isNumeric (fv w) = true /\ straight o CLt v w = false.
Proof. intro o. exists (plain (VInt (-1))), (FV (VUint (2 ^ 63)) true). repeat split; vm_compute; reflexivity. Qed.

(** ** Examples *)

(** [n < 5] on a number, an array, and nothing. *)
Definition stF : expr := XCmp CLt (fld 0 ["n"]%string) (ci 5).
Example C65_number : forall o, reports o [stF] (doc_text [] (obj [("n", lit "3")]%string) []) true false.
Proof.
  intro o. pose proof (C65_single o CLt (fld 0 ["n"]%string) (ci 5) [] (obj [("n", lit "3")]%string) [] (plain (VInt 3)) (FV (VInt 5) true)) as X.
  vm_compute truth in X. vm_compute straight in X. apply X; try reflexivity.
  - apply supportedb_ok; vm_compute; reflexivity.
  - apply wsb_ok; reflexivity.
  - apply wfb_ok; vm_compute; reflexivity.
  - apply wsb_ok; reflexivity.
  - apply benignb_ok; vm_compute; reflexivity.
Qed.
Example C65_array : forall o, reports o [stF] (doc_text [] (obj [("n", arr [lit "3"])]%string) []) false true.
Proof.
  intro o. pose proof (C65_single o CLt (fld 0 ["n"]%string) (ci 5) [] (obj [("n", arr [lit "3"])]%string) [] (plain (VArray (s2b "[3]"))) (FV (VInt 5) true)) as X.
  vm_compute truth in X. vm_compute straight in X. apply X; try reflexivity.
  - apply supportedb_ok; vm_compute; reflexivity.
  - apply wsb_ok; reflexivity.
  - apply wfb_ok; vm_compute; reflexivity.
  - apply wsb_ok; reflexivity.
  - apply benignb_ok; vm_compute; reflexivity.
Qed.
(** The status can stay clear although a comparison is not straight: the answer
    was known before. *)
Definition stF2 : expr := XOr [XCmp CEq (fld 0 ["m"]%string) (ci 1); stF].
Definition stD2 : cst := obj [("m", lit "1"); ("n", arr [lit "3"])]%string.
Example C65_known_before : forall o, mixed o stD2 stD2 stF2 /\ exists D s, transform o [stF2] = Ok D
  /\ matchWithStatus 100 o D (doc_text [] stD2 []) (newMatcher D) = Ok (s, Some true, false).
Proof.
  intro o. split.
  - right. left. split; [reflexivity|]. split; [reflexivity|]. do 2 eexists. repeat split.
  - let x := eval vm_compute in (transform o [stF2]) in match x with Ok ?D => exists D end. eexists. split; vm_compute; reflexivity.
Qed.
(** A loop: one element is a string that is not a number. *)
Definition stF3 : expr := XLoop LAny 1 (fld 0 ["n"]%string) (XCmp CLt (fld 1 []) (ci 5)).
Definition stD3 : cst := obj [("n", arr [str "x"; lit "7"])]%string.
Example C65_loop : forall o, exists c, reports o [stF3] (doc_text [] stD3 []) false c
  /\ (c = false -> forall h, lawful o h -> forall e, In e [stF3] -> truthBy o h stD3 stD3 e = truth o stD3 stD3 e)
  /\ (c = true -> exists e, In e [stF3] /\ mixed o stD3 stD3 e).
Proof.
  intro o. pose proof (C65_status o [stF3] [] stD3 []) as X. vm_compute existsb in X. apply X.
  - apply supportedb_ok; vm_compute; reflexivity.
  - apply wsb_ok; reflexivity.
  - apply wfb_ok; vm_compute; reflexivity.
  - apply wsb_ok; reflexivity.
  - apply benignb_ok; vm_compute; reflexivity.
Qed.
Example C65_kinds : vkindOf (VInt 3) = vkindOf (VFloat (Z2f 2)) /\ vkindOf (VInt 3) <> None.
Proof. split; [reflexivity|discriminate]. Qed.

Print Assumptions C65_status.
Print Assumptions C65_all_straight.
Print Assumptions C65_doubt_is_reported.
Print Assumptions C65_single.
Print Assumptions C65_same_kind.
Print Assumptions C65_container.
Print Assumptions C65_unsigned_refuted.
