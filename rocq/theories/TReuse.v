(** Using a transformer more than once: final statements (C61). *)
From Coq Require Import String.
From Verif Require Import Base MTokenizer MLit MFastVal SEvents MBinTree MExpr MTransform MMatcher MReuse PReuse TText.
From Coq Require Import List NArith ZArith Arith Lia Bool.
Import ListNotations.
Open Scope string_scope.
Open Scope nat_scope.

(** A fresh transformer is [transform]. *)
Lemma fresh_transform : forall o es, transformFrom 0 o es = transform o es.
Proof. reflexivity. Qed.

(** Whatever it has compiled before, a transformer accepts a filter list exactly when a fresh one does ... *)
Theorem C61_accepts : forall k o es,
  (forall D', transformFrom k o es = Ok D' -> exists D, transform o es = Ok D)
  /\ (forall D, transform o es = Ok D -> exists D', transformFrom k o es = Ok D')
  /\ (transformFrom k o es = Panic <-> transform o es = Panic).
Proof.
  intros k o es. rewrite transform_sh. destruct (transform o es) as [D| | |]; cbn [om]; repeat split; intros; try discriminate; eauto.
Qed.

(** ... and each of its definitions, in a sequence of calls, gives a matcher that cannot be told from one
    compiled afresh by any sequence of Match, Reset and ExpressionMatched calls. *)
Theorem C61_reuse : forall o calls k Ds, transformAll k o calls = Ok Ds ->
  length Ds = length calls /\
  forall i es D', nth_error calls i = Some es -> nth_error Ds i = Some D' ->
  exists D, transform o es = Ok D /\ forall fuel cs, useMatcher fuel o D' cs (newMatcher D') = useMatcher fuel o D cs (newMatcher D).
Proof.
  intros o calls. induction calls as [|es0 calls IH]; intros k Ds H; cbn [transformAll] in H.
  - injection H as <-. split; [reflexivity|]. intros [|i] es D' H1 H2; discriminate.
  - destruct (transformFrom k o es0) as [D0| | |] eqn:E0; try discriminate. cbn [obind] in H. destruct (transformAll (d_slots D0) o calls) as [Ds0| | |] eqn:E1; try discriminate.
    injection H as <-. destruct (IH _ _ E1) as [HL HN]. split; [cbn [length]; now rewrite HL|]. intros [|i] es D' H1 H2; [|eapply HN; eauto].
    injection H1 as <-. injection H2 as <-. destruct (proj1 (C61_accepts k o es0) _ E0) as [D ED]. exists D. split; [exact ED|]. intros fuel cs.
    pose proof (from_same k o es0 fuel cs) as F. rewrite E0, ED in F. exact F.
Qed.
(** No filter list of a sequence that compiles one by one is refused. *)
Theorem C61_all : forall o calls k, (forall es, In es calls -> exists D, transform o es = Ok D) -> exists Ds, transformAll k o calls = Ok Ds.
Proof.
  intros o calls. induction calls as [|es calls IH]; intros k H; [exists []; reflexivity|]. cbn [transformAll].
  destruct (H es (or_introl eq_refl)) as [D ED]. destruct (proj1 (proj2 (C61_accepts k o es)) _ ED) as [D' ED']. rewrite ED'. cbn [obind].
  destruct (IH (d_slots D')) as [Ds EDs]; [intros x Hx; apply H; now right|]. rewrite EDs. cbn [obind]. eauto.
Qed.

(** [a = b] twice (two slots each): the second definition uses slots 3 and 4. *)
Definition eqAB : list expr := [XCmp CEq (XField 0 [s2b "a"]) (XField 0 [s2b "b"])].
Definition script : list call := [CallMatch (s2b "{""a"":1,""b"":1}"); CallAsk 0; CallReset; CallMatch (s2b "{""a"":1,""b"":2}")].
Example C61_example :
  (exists D1 D2, transformAll 0 noOracle [eqAB; eqAB] = Ok [D1; D2] /\ d_slots D1 = 2 /\ d_slots D2 = 4 /\ d_heap D1 <> d_heap D2
    /\ useMatcher 50 noOracle D2 script (newMatcher D2) = Ok [SawMatch (Some true) false; SawExpr true; SawReset; SawMatch (Some false) false]).
Proof.
  eexists _, _. split; [vm_compute; reflexivity|]. split; [reflexivity|]. split; [reflexivity|]. split; [discriminate|]. vm_compute. reflexivity.
Qed.

Print Assumptions C61_accepts.
Print Assumptions C61_reuse.
Print Assumptions C61_all.
