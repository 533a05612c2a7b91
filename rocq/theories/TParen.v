(** The parentheses of a simple filter pair up. *)
From Coq Require Import String.
From Verif Require Import Base MTokenizer MLit MFastVal MMath MBinTree SEvents MExpr MExprJson MText MSimple PSimpleTerm PSimpleFuel PSimpleEnds TText SParen PParen.
From Coq Require Import List NArith ZArith Arith Lia Bool.
Import ListNotations.
Open Scope nat_scope.

(** C73: in a filter without quotes and calls that the simple parser accepts, every
    parenthesis that opens is closed, and none closes that was not opened. *)
Theorem C73_balanced : forall o fuel text e, bare text -> parseSimple o fuel text = Ok e -> balanced text.
Proof. intros o fuel text e H1 H2. eapply simple_balanced; eauto. Qed.

(** ... so that any other such filter is turned down after finitely many steps. *)
Theorem C73_turned_down : forall o text, bare text -> ~ balanced text ->
  exists fuel, forall g, fuel <= g -> parseSimple o g text = Err \/ parseSimple o g text = Panic.
Proof.
  intros o text HB HN. pose proof HB as [H1 [H2 _]]. destruct (parseSimple_ends o text (or_introl (conj H1 H2))) as [f Hf]. exists f. intros g Hg.
  pose proof (parseSimple_mono o text f g Hg Hf) as M. rewrite M. destruct (parseSimple o f text) as [e| | |] eqn:E; auto; [|congruence].
  exfalso. apply HN. eapply simple_balanced; eauto.
Qed.

(** *** Cases *)
Fixpoint noCallb (t : list N) : bool :=
  match t with
  | c :: r => negb (alnum c && match r with d :: _ => N.eqb d 40 | [] => false end) && noCallb r
  | [] => true
  end.
Definition without (c : N) (t : list N) : bool := negb (existsb (N.eqb c) t).
Lemma without_spec : forall c t, without c t = true -> ~ In c t.
Proof.
  intros c t H K. unfold without in H. apply negb_true_iff in H. assert (existsb (N.eqb c) t = true) as X by (apply existsb_exists; exists c; split; [exact K|apply N.eqb_refl]). congruence.
Qed.
Lemma noCallb_spec : forall t, noCallb t = true -> noCall t.
Proof.
  intros t H a. revert t H. induction a as [|x a IH]; intros t H c b ->; cbn [app noCallb] in H; apply andb_true_iff in H as [H1 H2].
  - apply negb_true_iff in H1. rewrite N.eqb_refl, andb_true_r in H1. exact H1.
  - eapply IH; [exact H2|reflexivity].
Qed.
Lemma bare_spec : forall t, without 34 t && without 39 t && without 96 t && noCallb t = true -> bare t.
Proof.
  intros t H. apply andb_true_iff in H as [H H4]. apply andb_true_iff in H as [H H3]. apply andb_true_iff in H as [H1 H2].
  split; [now apply without_spec|]. split; [now apply without_spec|]. split; [now apply without_spec|]. now apply noCallb_spec.
Qed.

Example C73_example : let t := s2b "((a = 1) AND b>2)" in bare t /\ (exists e, parseSimple noOracle 60 t = Ok e) /\ balanced t.
Proof. cbv zeta. split; [apply bare_spec; reflexivity|]. split; [eexists; vm_compute; reflexivity|reflexivity]. Qed.
Example C73_turned_down_example : forall t, In t (map s2b ["a = 5)"; "(a = 1"; "(a = 1))("; ")a = 1 ("; "((a = 1) AND b>2"]%string) ->
  bare t /\ ~ balanced t /\ parseSimple noOracle 60 t = Err.
Proof. intros t H. repeat (destruct H as [<-|H]; [split; [apply bare_spec; reflexivity|]; split; [discriminate|vm_compute; reflexivity]|]). destruct H. Qed.

(** Within a call the parentheses need not pair up: the argument is taken as a name. *)
Theorem C73_call_refuted : exists o fuel text e,
  ~ In 34%N text /\ ~ In 39%N text /\ ~ In 96%N text /\ parseSimple o fuel text = Ok e /\ ~ balanced text.
Proof.
  exists noOracle, 40, (s2b "ABS((a) = 1"). eexists. split; [now apply without_spec|]. split; [now apply without_spec|]. split; [now apply without_spec|].
  split; [vm_compute; reflexivity|discriminate].
Qed.
(** ... nor, rightly, within quotes of any of the three kinds. *)
Theorem C73_quotes_refuted : forall q, In q (map s2b ["a = ""(x"""; "a = ')'"; "`a b)` = 1"]%string) ->
  noCall q /\ (exists e, parseSimple noOracle 40 q = Ok e) /\ ~ balanced q.
Proof. intros t H. repeat (destruct H as [<-|H]; [split; [apply noCallb_spec; reflexivity|]; split; [eexists; vm_compute; reflexivity|discriminate]|]). destruct H. Qed.

Print Assumptions C73_balanced.
Print Assumptions C73_turned_down.
Print Assumptions C73_call_refuted.
Print Assumptions C73_quotes_refuted.
