(** The reference matcher and the matcher: final statements (C45). *)
From Coq Require Import String.
From Verif Require Import Base MTokenizer SJson SUnicode SNames MLit MFastVal SEvents MBinTree MExpr MExprJson MTransform MMatcher MTree SFilter SDoc SSat SSem
  PWf PCheck SExamples TMatch MSlow SSlow PSlow.
From Coq Require Import List NArith ZArith Arith Lia Bool Permutation.
From Coq Require Import Floats.SpecFloat.
Import ListNotations.
Open Scope nat_scope.

Lemma setNth_same : forall l i b, i < length l -> nth_error (setNth i b l) i = Some b.
Proof. induction l as [|x l IH]; intros [|i] b H; cbn in *; try lia; auto. apply IH. lia. Qed.
Lemma setNth_other : forall l i j b, i <> j -> nth_error (setNth i b l) j = nth_error l j.
Proof. induction l as [|x l IH]; intros [|i] [|j] b H; cbn; auto; try lia. Qed.
Lemma setNth_length : forall l i b, length (setNth i b l) = length l.
Proof. induction l as [|x l IH]; intros [|i] b; cbn; auto. Qed.

Lemma root_loop : forall o doc j es vs ms matched i vs' ms' r, parsesIntegers o -> wf_cst doc -> distinct doc -> decodes o doc j ->
  Forall (compilable o 0) es -> Forall (unshadowed [0]) es -> Forall (agreeable o doc doc) es -> (forall e, In e es -> e <> XTrue) ->
  vget 0 vs = j -> i + length es <= length ms -> rootLoop vs ms matched i es = (vs', ms', Ok r) ->
  (forall k, k < i -> nth_error ms' k = nth_error ms k)
  /\ (forall k e, nth_error es k = Some e -> nth_error ms' (i + k) = Some (truth o doc doc e))
  /\ (length ms' = length ms)
  /\ (i = 0 -> match es with [] => r = matched | e :: _ => r = forallb (truth o doc doc) es end)
  /\ (0 < i -> r = matched && forallb (truth o doc doc) es).
Proof.
  intros o doc j es. induction es as [|e es IH]; intros vs ms matched i vs' ms' r HP HW HD HDc HC HU HA HT H0 HL HR; cbn [rootLoop] in HR.
  - injection HR as <- <- <-. split; auto. split; [intros [|k] e E; discriminate E|]. split; auto. split; auto. intros _. now rewrite andb_true_r.
  - inversion HC as [|? ? HCe HC']; subst. inversion HU as [|? ? HUe HU']; subst. inversion HA as [|? ? HAe HA']; subst.
    destruct (matchOneRoot vs e) as [v1 res] eqn:E. destruct res as [b| | |]; try discriminate HR.
    assert (truth o doc doc e = b /\ vget 0 v1 = vget 0 vs) as [T K].
    { assert (e = XFalse \/ matchOneRoot vs e = matchOne vs e) as [-> |EM].
      { destruct e; auto. exfalso. apply (HT _ (or_introl eq_refl)). reflexivity. }
      { injection E as <- <-. auto. }
      rewrite EM in E. destruct (slow_truth o HP doc (vget 0 vs) HW HD HDc e 0 doc [0] vs v1 b HCe HUe HAe) as [T K]; auto; try (now left).
      - split; auto. split; auto. split; auto. split; eauto.
      - split; auto. apply K. now left. }
    cbn [length] in HL.
    destruct (IH v1 (setNth i b ms) (if Nat.eqb i 0 && b then true else if negb b then false else matched) (S i) vs' ms' r) as (A & B & L & _ & D); auto;
      try (intros; apply HT; now right); try (rewrite K; auto); try (rewrite setNth_length; lia).
    split; [|split; [|split; [|split]]].
    + intros k Hk. rewrite A by lia. apply setNth_other. lia.
    + intros [|k] e' E'; [injection E' as <-; rewrite Nat.add_0_r, A, setNth_same by lia; now rewrite T|].
      rewrite Nat.add_succ_r. now apply B.
    + rewrite L. apply setNth_length.
    + intros ->. rewrite D by lia. cbn [forallb Nat.eqb andb]. rewrite T. now destruct b.
    + intro Hi. rewrite D by lia. cbn [forallb]. rewrite T. destruct (Nat.eqb_spec i 0); [lia|]. cbn [andb]. destruct b, matched; reflexivity.
Qed.

(** C45.  Whenever the reference matcher, in any state, answers without an error,
    the two matchers agree on every expression, and on the whole if there is one
    expression - provided every field read is present, integer literals are below
    2^53, numbers are equal or 1e-7 apart, strings compared by order are printable,
    and loops run over arrays. *)
Theorem C45_agree : forall o unmarshal es w1 doc w2 j m m' r, parsesIntegers o ->
  supported o es -> ws w1 -> wf_cst doc -> ws w2 -> benign es doc ->
  Forall (agreeable o doc doc) es -> Forall (unshadowed [0]) es ->
  unmarshal (doc_text w1 doc w2) = Some j -> decodes o doc j ->
  sl_exprs m = es -> length (sl_matches m) = length es ->
  slowMatch unmarshal (doc_text w1 doc w2) m = (m', Ok r) ->
  exists f b, answers o es (doc_text w1 doc w2) b f
    /\ (forall i e, nth_error es i = Some e -> slowExpressionMatched m' i = Ok (f e))
    /\ (length es = 1 -> r = b).
Proof.
  intros o U es w1 doc w2 j m m' r HP HS W1 WD W2 HB HA HU EU HD EE EL HM.
  exists (truth o doc doc), (existsb (truth o doc doc) es). split; [now apply match_truth|].
  assert (forall e, In e es -> e <> XTrue) as HT.
  { intros e He ->. destruct HS as (_ & _ & HR). rewrite Forall_forall in HR. exact (HR _ He). }
  unfold slowMatch in HM. rewrite EU in HM. rewrite EE in HM.
  destruct (rootLoop (vset 0 j (sl_vars m)) (sl_matches m) false 0 es) as [[vs ms] res] eqn:ER.
  assert (res = Ok r /\ sl_matches m' = ms) as [-> Em] by (injection HM as <- ->; auto).
  destruct (root_loop o doc j es (vset 0 j (sl_vars m)) (sl_matches m) false 0 vs ms r HP WD ltac:(apply HB) HD ltac:(apply HS) HU HA HT ltac:(apply vget_set) ltac:(cbn; lia) ER) as (_ & B & L & R & _).
  split.
  - intros i e Hi. unfold slowExpressionMatched, idx. rewrite Em. specialize (B i e Hi). cbn in B. now rewrite B.
  - intro H1. destruct es as [|e [|e2 es]]; try discriminate H1. rewrite (R eq_refl). cbn. now rewrite andb_true_r, orb_false_r.
Qed.

(** ** A case meeting the hypotheses *)
Open Scope string_scope.
Definition cf (z : Z) : expr := XValue (GFloat (Z2f z)).
Definition cs (s : string) : expr := XValue (GString (s2b s)).
(** [(a >= 5 or a = null) and b < "ya" and some v in items: v.n <> a and v.ok = true]. *)
Definition exS : expr :=
  XAnd [XOr [XCmp CGe (fld 0 ["a"]) (cf 5); XCmp CEq (fld 0 ["a"]) (XValue GNil)];
        XCmp CLt (fld 0 ["b"]) (cs "ya");
        XLoop LAny 1 (fld 0 ["items"]) (XAnd [XCmp CNe (fld 1 ["n"]) (fld 0 ["a"]); XCmp CEq (fld 1 ["ok"]) (XValue (GBool true))])].
Definition exSD : cst :=
  obj [("b", str "xy"); ("a", lit "7"); ("items", arr [obj [("n", lit "7"); ("ok", lit "true")]; obj [("ok", lit "true"); ("n", lit "-1")]])].
(** The members of each object in another order. *)
Definition exSJ : jv :=
  JObj [(s2b "a", JNum (Z2f 7)); (s2b "items", JArr [JObj [(s2b "ok", JBool true); (s2b "n", JNum (Z2f 7))]; JObj [(s2b "ok", JBool true); (s2b "n", JNum (Z2f (-1)))]]); (s2b "b", JStr (s2b "xy"))].

Lemma exS_int : forall o x z, parsesIntegers o -> int_part x -> int_val x = z -> (z <> 0)%Z -> (- 2 ^ 53 < z < 2 ^ 53)%Z -> o_parseFloat o x = (Z2f z, true).
Proof. intros o x z HP HI E Hz Hr. destruct (HP x HI) as (f & F & [-> |[H _]]); [lia|now rewrite F, E|lia]. Qed.
Lemma exS_7 : int_part (s2b "7").
Proof. apply ip_pos. apply (np_pos 55%N []); [unfold digit19; lia|constructor]. Qed.
Lemma exS_m1 : int_part (s2b "-1").
Proof. apply (ip_neg [49]%N). apply (np_pos 49%N []); [unfold digit19; lia|constructor]. Qed.
Lemma exS_xy : Forall SUnicode.scalar [120; 121]%N /\ Forall SUnicode.scalar [121; 97]%N.
Proof. unfold SUnicode.scalar. split; repeat constructor; lia. Qed.

Example exSD_decodes : forall o, parsesIntegers o -> decodes o exSD exSJ.
Proof.
  intros o HP. pose proof (exS_int o (s2b "7") 7 HP exS_7 eq_refl ltac:(lia) ltac:(lia)) as F7.
  pose proof (exS_int o (s2b "-1") (-1) HP exS_m1 eq_refl ltac:(lia) ltac:(lia)) as F1.
  apply dc_obj with (m := [(s2b "b", JStr (s2b "xy")); (s2b "a", JNum (Z2f 7)); (s2b "items", JArr [JObj [(s2b "ok", JBool true); (s2b "n", JNum (Z2f 7))]; JObj [(s2b "ok", JBool true); (s2b "n", JNum (Z2f (-1)))]])]).
  - constructor; [split; [exact (ni_plain (s2b "b"))|]|constructor; [split; [exact (ni_plain (s2b "a"))|]|constructor; [split; [exact (ni_plain (s2b "items"))|]|constructor]]].
    + apply (dc_str o TString (s2b """xy""") [120; 121]%N); [apply exS_xy|exact (ni_plain (s2b "xy"))].
    + apply (dc_num o TInteger (s2b "7") (Z2f 7)); [now left|exact F7].
    + apply dc_arr. constructor; [|constructor; [|constructor]].
      * apply dc_obj with (m := [(s2b "n", JNum (Z2f 7)); (s2b "ok", JBool true)]); [|apply perm_swap]. constructor; [split; [exact (ni_plain (s2b "n"))|]|constructor; [split; [exact (ni_plain (s2b "ok"))|]|constructor]].
        -- apply (dc_num o TInteger (s2b "7") (Z2f 7)); [now left|exact F7].
        -- apply dc_true.
      * eapply dc_obj; [|apply Permutation_refl]. constructor; [split; [exact (ni_plain (s2b "ok"))|]|constructor; [split; [exact (ni_plain (s2b "n"))|]|constructor]].
        -- apply dc_true.
        -- apply (dc_num o TInteger (s2b "-1") (Z2f (-1))); [now left|exact F1].
  - apply (Permutation_app_comm [_] [_; _]).
Qed.
Lemma num_lit : forall o t x f g, number o (OD (CLit t x)) f -> o_parseFloat o x = (g, true) -> f = g.
Proof. intros o t x f g [E|(t' & x' & _ & E & F)] G; [discriminate E|]. injection E as <- <-. congruence. Qed.
Lemma num_const : forall o f g, number o (OC (GFloat f)) g -> g = f.
Proof. intros o f g [E|(t' & x' & _ & E & F)]; [now injection E|discriminate E]. Qed.
Example exS_agreeable : forall o, parsesIntegers o -> (forall u, (97 <= u <= 122)%N -> o_isPrint o u = true) -> agreeable o exSD exSD exS.
Proof.
  intros o HP HI. pose proof (exS_int o (s2b "7") 7 HP exS_7 eq_refl ltac:(lia) ltac:(lia)) as F7.
  pose proof (exS_int o (s2b "-1") (-1) HP exS_m1 eq_refl ltac:(lia) ltac:(lia)) as F1.
  assert (forall x z t k, int_part x -> o_parseFloat o x = (Z2f z, true) -> int_val x = z -> (- 2 ^ 53 < z < 2 ^ 53)%Z -> (t = z \/ clear (Z2f z) (Z2f t)) ->
    Z2f z <> S754_nan -> Z2f t <> S754_nan -> comparable o k (OD (CLit TInteger x)) (OC (GFloat (Z2f t)))) as CF.
  { intros x z t k _ F E R Hc N1 N2. split; [|split; [|split; discriminate]].
    - intros f g Hf Hg. apply (num_lit _ _ _ _ _ Hf) in F. subst f. apply num_const in Hg. subst g.
      split; [intros y Ey; injection Ey as <-; now rewrite E|]. split; [intros y Ey; discriminate Ey|]. split; auto. split; auto. right. destruct Hc as [-> |]; auto.
      left. now rewrite Z2f_compare, Z.compare_refl.
    - intros s t' _ [E'|(t2 & x2 & E' & _)]; discriminate E'. }
  assert (forall x y z t k, o_parseFloat o x = (Z2f z, true) -> int_val x = z -> (- 2 ^ 53 < z < 2 ^ 53)%Z -> o_parseFloat o y = (Z2f t, true) -> int_val y = t -> (- 2 ^ 53 < t < 2 ^ 53)%Z ->
    Z2f z <> S754_nan -> Z2f t <> S754_nan -> comparable o k (OD (CLit TInteger x)) (OD (CLit TInteger y))) as CI.
  { intros x y z t k F E R F' E' R' N1 N2. split; [|split; [|split; discriminate]].
    - intros f g Hf Hg. apply (num_lit _ _ _ _ _ Hf) in F. subst f. apply (num_lit _ _ _ _ _ Hg) in F'. subst g.
      split; [intros q Eq; injection Eq as <-; now rewrite E|]. split; [intros q Eq; injection Eq as <-; now rewrite E'|]. split; auto. split; auto. left. split; eexists; reflexivity.
    - intros s t' [Es|(t2 & x2 & Es & Hn)]; [discriminate Es|]. injection Es as <- <-. inversion Hn. }
  repeat split.
  - eexists _, _. split; [reflexivity|]. split; [reflexivity|]. apply (CF (s2b "7") 7%Z 5%Z); try exact F7; try exact exS_7; try reflexivity; try lia; try discriminate.
    right. right. vm_compute. reflexivity.
  - eexists _, _. split; [reflexivity|]. split; [reflexivity|]. split; [|split; [|split; discriminate]].
    + intros f g _ [E|(t2 & x2 & _ & E & _)]; discriminate E.
    + intros s t _ [E|(t2 & x2 & E & _)]; discriminate E.
  - eexists _, _. split; [reflexivity|]. split; [reflexivity|]. split; [|split; [|split; discriminate]].
    + intros f g _ [E|(t2 & x2 & _ & E & _)]; discriminate E.
    + intros s t [E|(t2 & x2 & E & Hs)]; [discriminate E|]. injection E as <- <-. intros [E|(t2 & x2 & E & _)]; [|discriminate E]. injection E as <-.
      assert (s = s2b "xy") as -> by (apply (TNames.name_fun _ _ _ _ Hs (ni_plain (s2b "xy")))).
      split; [unfold all_bytes; repeat constructor|]. split; [unfold all_bytes; repeat constructor|]. right. right.
      split; [exists [120; 121]%N|exists [121; 97]%N]; (split; [reflexivity|]); repeat constructor; unfold SUnicode.scalar; try (apply HI); try lia; discriminate.
  - eexists _, _. split; [reflexivity|]. intros e [<-|[<-|[]]].
    + repeat split.
      * eexists _, _. split; [reflexivity|]. split; [reflexivity|]. apply (CI (s2b "7") (s2b "7") 7%Z 7%Z); try exact F7; try reflexivity; try lia; discriminate.
      * eexists _, _. split; [reflexivity|]. split; [reflexivity|]. split; [|split; [|split; discriminate]].
        -- intros f g _ [E|(t2 & x2 & _ & E & _)]; discriminate E.
        -- intros s t _ [E|(t2 & x2 & E & _)]; discriminate E.
    + repeat split.
      * eexists _, _. split; [reflexivity|]. split; [reflexivity|]. apply (CI (s2b "-1") (s2b "7") (-1)%Z 7%Z); try exact F7; try exact F1; try reflexivity; try lia; discriminate.
      * eexists _, _. split; [reflexivity|]. split; [reflexivity|]. split; [|split; [|split; discriminate]].
        -- intros f g _ [E|(t2 & x2 & _ & E & _)]; discriminate E.
        -- intros s t _ [E|(t2 & x2 & E & _)]; discriminate E.
Qed.
Example C45_case : forall o, supported o [exS] /\ wf_cst exSD /\ benign [exS] exSD /\ unshadowed [0] exS
  /\ snd (slowMatch (fun _ => Some exSJ) [] (newSlow [exS])) = Ok true.
Proof.
  intro o. split; [apply supportedb_ok; vm_compute; reflexivity|]. split; [apply wfb_ok; vm_compute; reflexivity|]. split; [apply benignb_ok; vm_compute; reflexivity|].
  split; [|vm_compute; reflexivity]. cbn. repeat split; auto. intros [H|[]]. discriminate H.
Qed.
(** Such readings of numbers exist. *)
Example C45_numbers : exists o, parsesIntegers o.
Proof.
  exists {| o_parseFloat := fun x => (Z2f (int_val x), true); o_fmtE := fun _ => []; o_isPrint := fun _ => true; o_delX := true; o_parseRFC3339 := fun _ => None;
            o_f2i := fun _ => 0%Z; o_f2u := fun _ => 0%Z; o_fun1 := fun _ f => f; o_fun2 := fun _ f _ => f; o_regex := fun _ _ => false; o_pcre := fun _ _ => false;
            o_regexCompiles := fun _ => true; o_pcreCompiles := fun _ => true |}.
  intros x _ _. eexists. split; [reflexivity|]. now left.
Qed.

(** ** Where they differ *)
Definition slowRun (j : jv) (es : list expr) : outcome bool := snd (slowMatch (fun _ => Some j) [] (newSlow es)).
Lemma ip1 : forall d, digit19 d -> int_part [d].
Proof. intros d H. apply ip_pos. apply (np_pos d []); [exact H|constructor]. Qed.

(** Several expressions: the reference matcher wants all of them, the other one. *)
Theorem C45_several_refuted : forall o, parsesIntegers o -> exists es j,
  decodes o (obj [("a", lit "1")]) j /\ slowRun j es = Ok false /\ run o es "{""a"":1}" = Ok (Some true).
Proof.
  intros o HP. exists [XCmp CEq (fld 0 ["a"]) (cf 1); XCmp CEq (fld 0 ["a"]) (cf 2)], (JObj [(s2b "a", JNum (Z2f 1))]).
  split; [|split; vm_compute; reflexivity].
  eapply dc_obj; [|apply Permutation_refl]. constructor; [split; [exact (ni_plain (s2b "a"))|]|constructor].
  apply (dc_num o TInteger (s2b "1") (Z2f 1)); [now left|]. apply (exS_int o (s2b "1") 1 HP); try reflexivity; try lia. apply (ip1 49%N). unfold digit19. lia.
Qed.

(** A missing last name counts as null there, below every number; it makes a comparison false here. *)
Theorem C45_missing_refuted : forall o, exists es j,
  decodes o (obj [("b", lit "true")]) j /\ slowRun j es = Ok true /\ run o es "{""b"":true}" = Ok (Some false).
Proof.
  intros o. exists [XCmp CLt (fld 0 ["a"]) (cf 5)], (JObj [(s2b "b", JBool true)]).
  split; [|split; vm_compute; reflexivity].
  eapply dc_obj; [|apply Permutation_refl]. constructor; [split; [exact (ni_plain (s2b "b"))|]|constructor]. apply dc_true.
Qed.

(** A loop over an object visits its values there and nothing here. *)
Theorem C45_object_loop_refuted : forall o, exists es j,
  decodes o (obj [("a", obj [("k", lit "true")])]) j /\ slowRun j es = Ok true /\ run o es "{""a"":{""k"":true}}" = Ok (Some false).
Proof.
  intros o. exists [XLoop LAny 1 (fld 0 ["a"]) (XCmp CEq (fld 1 []) (XValue (GBool true)))], (JObj [(s2b "a", JObj [(s2b "k", JBool true)])]).
  split; [|split; vm_compute; reflexivity].
  eapply dc_obj; [|apply Permutation_refl]. constructor; [split; [exact (ni_plain (s2b "a"))|]|constructor].
  eapply dc_obj; [|apply Permutation_refl]. constructor; [split; [exact (ni_plain (s2b "k"))|]|constructor]. apply dc_true.
Qed.

(** Integers beyond 2^53 lose their last digits there and keep them here. *)
Theorem C45_integers_refuted : forall o f, o_parseFloat o (s2b "9007199254740992") = (f, true) -> o_parseFloat o (s2b "9007199254740993") = (f, true) ->
  f = Z2f 9007199254740992 -> exists es j,
  decodes o (obj [("a", lit "9007199254740992"); ("b", lit "9007199254740993")]) j /\ slowRun j es = Ok true
  /\ run o es "{""a"":9007199254740992,""b"":9007199254740993}" = Ok (Some false).
Proof.
  intros o f F G ->. exists [XCmp CEq (fld 0 ["a"]) (fld 0 ["b"])], (JObj [(s2b "a", JNum (Z2f 9007199254740992)); (s2b "b", JNum (Z2f 9007199254740992))]).
  split; [|split; vm_compute; reflexivity].
  eapply dc_obj; [|apply Permutation_refl]. constructor; [split; [exact (ni_plain (s2b "a"))|]|constructor; [split; [exact (ni_plain (s2b "b"))|]|constructor]].
  - eapply (dc_num o TInteger); [now left|exact F].
  - eapply (dc_num o TInteger); [now left|exact G].
Qed.

(** Order of strings: here both are written with quotes and escapes first, so a newline
    sorts as a backslash, after A. *)
Theorem C45_order_refuted : exists o es j, o_isPrint o 65 = true /\ o_isPrint o 10 = false /\
  decodes o (obj [("a", str "A")]) j /\ slowRun j es = Ok true /\ run o es "{""a"":""A""}" = Ok (Some false).
Proof.
  exists {| o_parseFloat := fun x => (Z2f (int_val x), true); o_fmtE := fun _ => []; o_isPrint := fun u => (32 <=? u)%N; o_delX := true; o_parseRFC3339 := fun _ => None;
            o_f2i := fun _ => 0%Z; o_f2u := fun _ => 0%Z; o_fun1 := fun _ f => f; o_fun2 := fun _ f _ => f; o_regex := fun _ _ => false; o_pcre := fun _ _ => false;
            o_regexCompiles := fun _ => true; o_pcreCompiles := fun _ => true |}.
  exists [XCmp CGt (fld 0 ["a"]) (XValue (GString [10%N]))], (JObj [(s2b "a", JStr (s2b "A"))]).
  split; [reflexivity|]. split; [reflexivity|]. split; [|split; vm_compute; reflexivity].
  eapply dc_obj; [|apply Permutation_refl]. constructor; [split; [exact (ni_plain (s2b "a"))|]|constructor].
  apply (dc_str _ TString (s2b """A""") [65]%N); [constructor; [unfold SUnicode.scalar; lia|constructor]|exact (ni_plain (s2b "A"))].
Qed.

Print Assumptions C45_agree.
Print Assumptions C45_several_refuted.
Print Assumptions C45_missing_refuted.
Print Assumptions C45_object_loop_refuted.
Print Assumptions C45_integers_refuted.
Print Assumptions C45_order_refuted.
