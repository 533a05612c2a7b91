(** C77: what the text of a compiled filter says. *)
From Coq Require Import String.
From Verif Require Import Base MTokenizer MLit MFastVal SEvents SFormula SMerge MBinTree MExpr MTransform SCompile MDefShow SDefShow PBinTree PMerge PCompile PDefHeap PDefShow.
From Coq Require Import List NArith ZArith Arith Lia Bool.
Import ListNotations.
Open Scope nat_scope.

Lemma filter_noPcre : forall p es, forallb noPcre es = true -> forallb noPcre (filter p es) = true.
Proof.
  intros p es H. rewrite forallb_forall in *. intros e HI. apply filter_In in HI as [HI _]. auto.
Qed.
(** The text behind the document part. *)
Definition tailLines (f : form) (buckets : list Z) (slots : nat) : list bytes :=
  (s2b "bin tree:" :: outline 1 0 0 f) ++ (s2b "match buckets:" :: answerLines 0 buckets)
  ++ [s2b "num buckets: " ++ appendUint (Z.of_nat (fsize f)); s2b "num slots: " ++ appendUint (Z.of_nat slots)].
Lemma def_text : forall o es D x, transform o es = Ok D -> genExprs es <> [] -> forallb noPcre es = true ->
  exists g gs doc text enough, genExprs es = g :: gs
    /\ (forall fuel, enough <= fuel -> showDef x fuel D = Ok text)
    /\ text = s2b "match tree:" ++ nl ++ s2b "  $doc:" ++ nl ++ doc ++ nl ++ textOf (tailLines (structures g gs) (d_buckets D) (d_slots D))
    /\ forall c, In c (allConditions 0 g gs) -> exists w, condText x o c w /\ (oneLine w -> contains w doc).
Proof.
  intros o es D x H HN HP. destruct (transform_spec _ _ _ H) as [[E _]|(g & gs & t & ids & Eg & Em & HT & Hids & HD)]; [contradiction|].
  pose proof (filter_noPcre (fun e => match isConst e with Some _ => false | None => true end) es HP) as HPg. fold (genExprs es) in HPg. rewrite Eg in HPg.
  cbn [forallb] in HPg. apply andb_true_iff in HPg as [HP1 HP2].
  destruct (puts_merge o gs g HP1 HP2 tr0 [] 0 t ids openAt_tr0 inv_tr0 Em) as [(_ & (HO & HA & H0 & _) & _) HF].
  destruct (exec_ok x (t_heap t) HO (length (t_heap t)) 0 H0) as [doc Edoc]; [lia|].
  pose proof (lay_linked (structures g gs) 0 [] []) as HL. cbn [app length] in HL. rewrite app_nil_r in HL.
  set (f := structures g gs) in *. set (enough := length (t_heap t) + fsize f).
  exists g, gs, (reindentBy sp4 doc), (s2b "match tree:" ++ nl ++ s2b "  $doc:" ++ nl ++ reindentBy sp4 doc ++ nl ++ textOf (tailLines f (d_buckets D) (d_slots D))), enough.
  split; [exact Eg|]. split; [|split; [reflexivity|]].
  - intros fuel Hf. unfold enough in Hf. rewrite HD. unfold showDef. cbn [d_heap d_tree d_buckets d_slots]. rewrite Edoc by lia. cbn [obind].
    rewrite (tree_text f _ 0 0 fuel HL) by lia. cbn [obind]. f_equal.
    rewrite reindent_lines by (apply outline_ne || apply outline_ok). rewrite <- outline_deeper, lay_length.
    set (B := exprBuckets es ids) in *. set (S := t_slot t) in *.
    assert (closed (s2b "num slots: " ++ showNat S)) as HC.
    { apply oneLine_closed; [|discriminate]. apply oneLine_app; [apply oneLine_lit; reflexivity|apply oneLine_num]. }
    unfold tailLines. rewrite textOf_app by discriminate. rewrite (textOf_cons (s2b "bin tree:")) by apply outline_ne.
    cbn [app]. rewrite (textOf_cons (s2b "match buckets:")) by (destruct (answerLines 0 B); discriminate).
    rewrite <- buckets_text by discriminate. cbn [textOf].
    match goal with |- trimNL ?a = ?b => transitivity (trimNL (b ++ nl)) end.
    + f_equal. unfold nl, showNat. repeat rewrite <- app_assoc. cbn [app]. repeat rewrite <- app_assoc. reflexivity.
    + apply trim_nl. unfold nl. repeat (first [exact HC|apply closed_app]).
  - intros c HI. rewrite Forall_forall in HF. destruct (HF _ HI) as (p & Hp & E1 & E2 & F1 & F2).
    destruct (exec_ops x (t_heap t) HO p HA H0 Hp) as (d2 & w & Ed & Ew & Hcon). pose proof (op_text x o c p w E1 E2 F1 F2 Ew) as HW. exists w. split; [exact HW|].
    intro Hl. apply contains_reindent; [exact Hl|]. specialize (Ed _ (le_n _)). rewrite (Edoc _ (le_n _)) in Ed. injection Ed as ->. apply Hcon; [exact Hl|]. eapply condText_ne; eauto.
Qed.

(** A filter without PCRE constants, with at least one expression that is not a constant:
    its compiled form can be shown, and behind the part on the document the text gives, line
    by line, the whole tree of the filter's structure, the places of the expressions in it, the
    number of tree nodes and the number of slots. *)
Theorem C77_shown : forall o es D x, transform o es = Ok D -> genExprs es <> [] -> forallb noPcre es = true ->
  exists g gs doc text enough, genExprs es = g :: gs
    /\ (forall fuel, enough <= fuel -> showDef x fuel D = Ok text)
    /\ text = s2b "match tree:" ++ nl ++ s2b "  $doc:" ++ nl ++ doc ++ nl ++ textOf (tailLines (structures g gs) (d_buckets D) (d_slots D)).
Proof.
  intros o es D x H HN HP. destruct (def_text o es D x H HN HP) as (g & gs & doc & text & enough & A & B & C & _). exists g, gs, doc, text, enough. auto.
Qed.
(** Every comparison and every existence test of the filter stands in the text, with its
    number in the tree, its operator and its operands, if these are written on one line. *)
Theorem C77_conditions : forall o es D x g gs, transform o es = Ok D -> genExprs es = g :: gs -> forallb noPcre es = true ->
  exists text enough, (forall fuel, enough <= fuel -> showDef x fuel D = Ok text)
    /\ forall c, In c (allConditions 0 g gs) -> exists w, condText x o c w /\ (oneLine w -> contains w text).
Proof.
  intros o es D x g gs H Eg HP. assert (genExprs es <> []) as HN by congruence.
  destruct (def_text o es D x H HN HP) as (g1 & gs1 & doc & text & enough & A & B & C & F). rewrite Eg in A. injection A as <- <-.
  exists text, enough. split; [exact B|]. intros c HI. destruct (F c HI) as (w & HW & HC). exists w. split; [exact HW|].
  intro HL. rewrite C. do 4 apply contains_right. apply contains_left. auto.
Qed.
(** A list of constants compiles, but its compiled form cannot be shown. *)
Theorem C77_constants_refuted : forall o es x, genExprs es = [] ->
  exists D, transform o es = Ok D /\ forall fuel, showDef x fuel D = Panic.
Proof. intros o es x H. unfold transform. rewrite H. eexists. split; [reflexivity|]. reflexivity. Qed.
(** Neither can that of a filter with a PCRE constant, wherever it compiles. *)
Definition exPcre : list expr := [XCmp CLike (XField 0 [s2b "a"]) (XPcre (s2b "^b"))].
Theorem C77_pcre_refuted : forall o x, o_pcreCompiles o (s2b "^b") = true ->
  exists D, transform o exPcre = Ok D /\ forall fuel, showDef x (S (S fuel)) D = Panic.
Proof.
  intros o x HC.
  exists (MatchDef (Some [ExecN 0 [(s2b "a", 1)] [] [] None; ExecN 0 [] [OpN 0 OpMatches None (Some (DVal (FV (VPcre (s2b "^b")) true)))] [] None])
            [Node NLeaf 0 0 0] [0%Z] 0).
  split; [|reflexivity]. unfold transform. cbn [genExprs exPcre filter isConst]. cbn [transformMerge transformOne]. unfold transformComparison.
  change (pickBaseNode tr0 _) with (Ok (Tr [ExecN 0 [(s2b "a", 1)] [] [] None; emptyExec] [Node NLeaf 0 0 0] 1 0 0 [], RNode 1)). cbn [obind].
  change (makeDataRef o (XField 0 [s2b "a"]) (RNode 1) (Tr [ExecN 0 [(s2b "a", 1)] [] [] None; emptyExec] [Node NLeaf 0 0 0] 1 0 0 []))
    with (Ok (Tr [ExecN 0 [(s2b "a", 1)] [] [] None; emptyExec] [Node NLeaf 0 0 0] 1 0 0 [], @None dref)). cbn [obind].
  cbn [makeDataRef dataRefIn constRef]. rewrite HC. reflexivity.
Qed.

(** [any v in b: v = 3], and [c < a or not (c exists)]: the whole text. *)
Definition exDef : list expr :=
  [XLoop LAny 1 (XField 0 [s2b "b"]) (XCmp CEq (XField 1 []) (XValue (GInt 3)));
   XTrue;
   XOr [XCmp CLt (XField 0 [s2b "c"]) (XField 0 [s2b "a"]); XNotExists (XField 0 [s2b "c"])]].
Definition exDefLines : list bytes := map s2b
  ["match tree:"; "  $doc:"; "    :elems"; "      `a`:"; "        :store $2"; "      `b`:"; "        :loops"; "          [2] :any in @:";
   "            :ops"; "              [2] @ eq (int)3"; "      `c`:"; "        :store $1"; "        :ops"; "          [6] @ exists @";
   "    :after-ops:"; "      [4] $1 lt $2";
   "bin tree:"; "  [0:0] neor"; "    [1:0] loop"; "      [2:1] leaf"; "    [3:0] or"; "      [4:3] leaf"; "      [5:3] not"; "        [6:5] leaf";
   "match buckets:"; "  0: 1"; "  1: -1"; "  2: 3"; "num buckets: 7"; "num slots: 2"]%string.
Example C77_example : forall o x, exists D, transform o exDef = Ok D /\ genExprs exDef <> [] /\ forallb noPcre exDef = true
  /\ showDef x 20 D = Ok (textOf exDefLines)
  /\ allConditions 0 (nth 0 exDef XTrue) [nth 2 exDef XTrue] = [Cond 2 OpEquals (XField 1 []) (Some (XValue (GInt 3)));
     Cond 4 OpLessThan (XField 0 [s2b "c"]) (Some (XField 0 [s2b "a"])); Cond 6 OpExists (XField 0 [s2b "c"]) None].
Proof.
  intros o x. let v := eval vm_compute in (transform o exDef) in match v with Ok ?D => exists D end.
  split; [vm_compute; reflexivity|]. split; [discriminate|]. split; [reflexivity|]. split; vm_compute; reflexivity.
Qed.

Print Assumptions C77_shown.
Print Assumptions C77_conditions.
Print Assumptions C77_constants_refuted.
Print Assumptions C77_pcre_refuted.
