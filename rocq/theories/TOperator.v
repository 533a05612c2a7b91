(** Comparison operators of text filters, from their signs to their meaning: final
    statement (C62). *)
From Coq Require Import String.
From Verif Require Import Base MFastVal MExpr MText MGrammar.
From Coq Require Import List NArith Lia.
Import ListNotations.
Local Open Scope list_scope.

(** The four signs, and the operators written with one or two of them. *)
Inductive sign := Bang | Equals | Less | Greater.
Definition signText (s : sign) : bytes := match s with Bang => s2b "!" | Equals => s2b "=" | Less => s2b "<" | Greater => s2b ">" end%string.
Inductive operator : list sign -> cmpk -> Prop :=
| op_eq : operator [Equals] CEq | op_eq2 : operator [Equals; Equals] CEq
| op_ne : operator [Bang; Equals] CNe | op_ne2 : operator [Less; Greater] CNe
| op_lt : operator [Less] CLt | op_le : operator [Less; Equals] CLe
| op_gt : operator [Greater] CGt | op_ge : operator [Greater; Equals] CGe.
Definition isSign (t : token) : Prop := exists s, tk_text t = signText s.

(** Up to two signs are read as one operator; it is translated as what the signs say, and
    refused if they are no operator. *)
Theorem C62_operators : forall L ts ss rest l r, (1 <= List.length ss <= 2)%nat -> map tk_text ts = map signText ss ->
  (List.length ss = 2%nat \/ match rest with t :: _ => ~ isSign t | [] => True end) ->
  exists p, pCompareOp L (ts ++ rest) = POk p rest
    /\ (forall k, operator ss k -> outCompareOp p l r = Ok (XCmp k l r)) /\ ((forall k, ~ operator ss k) -> outCompareOp p l r = Err).
Proof.
  assert (forall L s t r, tk_text t = signText s -> exists c, pOpChar L (t :: r) = POk c r /\ c = match s with
    | Bang => {| oc_not := Some true; oc_eq := None; oc_lt := None; oc_gt := None |} | Equals => {| oc_not := None; oc_eq := Some true; oc_lt := None; oc_gt := None |}
    | Less => {| oc_not := None; oc_eq := None; oc_lt := Some true; oc_gt := None |} | Greater => {| oc_not := None; oc_eq := None; oc_lt := None; oc_gt := Some true |} end) as P.
  { intros L s t r E. eexists. split; [|reflexivity]. unfold pOpChar, pAlt, pAlts, pFlag, pmap, pLit. rewrite E. destruct s; reflexivity. }
  assert (forall L rest, match rest with t :: _ => ~ isSign t | [] => True end -> pOpChar L rest = PNone) as Q.
  { intros L [|t r] H; [reflexivity|]. unfold pOpChar, pAlt, pAlts, pFlag, pmap, pLit.
    destruct (bytes_eqb (tk_text t) (s2b "!")) eqn:E1; [apply bytes_eqb_eq in E1; destruct H; now exists Bang|].
    destruct (bytes_eqb (tk_text t) (s2b "=")) eqn:E2; [apply bytes_eqb_eq in E2; destruct H; now exists Equals|].
    destruct (bytes_eqb (tk_text t) (s2b "<")) eqn:E3; [apply bytes_eqb_eq in E3; destruct H; now exists Less|].
    destruct (bytes_eqb (tk_text t) (s2b ">")) eqn:E4; [apply bytes_eqb_eq in E4; destruct H; now exists Greater|]. reflexivity. }
  intros L ts ss rest l r HL HT HR. destruct ss as [|a [|b [|? ?]]]; cbn [List.length] in HL, HR; try (exfalso; lia).
  - destruct ts as [|t [|? ?]]; try discriminate HT. injection HT as Ea. destruct HR as [HR|HR]; [discriminate HR|]. destruct (P L a t rest Ea) as (c & E & EC).
    eexists. split; [cbn [app]; unfold pCompareOp, pthen; rewrite E; unfold pOpt; rewrite (Q L rest HR); reflexivity|].
    subst c. split; intros; destruct a; try (inversion H; subst); try reflexivity; exfalso; eapply H; constructor.
  - destruct ts as [|t [|t' [|? ?]]]; try discriminate HT. injection HT as Ea Eb. destruct (P L a t (t' :: rest) Ea) as (c & E & EC), (P L b t' rest Eb) as (c' & E' & EC').
    eexists. split; [cbn [app]; unfold pCompareOp, pthen; rewrite E; unfold pOpt; rewrite E'; reflexivity|].
    subst c c'. split; intros; destruct a, b; try (inversion H; subst); try reflexivity; exfalso; eapply H; constructor.
Qed.
(** [<=] is an operator, [=<] is none. *)
Example C62_operators_case : operator [Less; Equals] CLe /\ (forall k, ~ operator [Equals; Less] k).
Proof. split; [constructor|]. intros k H. inversion H. Qed.
Print Assumptions C62_operators.
