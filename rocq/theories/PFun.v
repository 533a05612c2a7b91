(** The functions of operands return for every argument. *)
From Coq Require Import String.
From Verif Require Import Base MTokenizer SJson MLit MFastVal MMath SEvents MExpr MTransform MMatcher MTree SDoc SFilter SSat.
From Coq Require Import List NArith ZArith Arith Lia Bool.
Import ListNotations.
Open Scope nat_scope.

Ltac total := repeat match goal with
  | |- exists y, Ok ?x = Ok y => exists x; reflexivity
  | |- exists y, (let '(_, _) := ?p in _) = _ => destruct p
  | |- exists y, (if ?b then _ else _) = _ => destruct b
  | |- exists y, match ?b with _ => _ end = _ => destruct b
  end.

Lemma gi_total : forall o v w op, (forall a b, op a b <> None) -> exists y, generic2Ints o v w op = Ok y.
Proof.
  intros o v w op H. unfold generic2Ints. destruct (asInt o (fv v)) as [a ok], (asInt o (fv w)) as [b ok2].
  specialize (H a b). destruct (op a b); [total|contradiction].
Qed.
Lemma gu_total : forall o v w op, (forall a b, op a b <> None) -> exists y, generic2Uints o v w op = Ok y.
Proof.
  intros o v w op H. unfold generic2Uints. destruct (asUint o (fv v)) as [a ok], (asUint o (fv w)) as [b ok2].
  specialize (H a b). destruct (op a b); [total|contradiction].
Qed.
Lemma gf_total : forall o v w op, exists y, generic2Floats o v w op = Ok y.
Proof. intros o v w op. unfold generic2Floats. total. Qed.
Ltac total2 := repeat first
  [ match goal with |- exists y, Ok ?x = Ok y => exists x; reflexivity end
  | apply gi_total; intros; discriminate | apply gu_total; intros; discriminate | apply gf_total
  | match goal with
    | |- exists y, (let '(_, _) := ?p in _) = _ => destruct p
    | |- exists y, (if ?b then _ else _) = _ => destruct b
    | |- exists y, match ?b with _ => _ end = _ => destruct b
    end ].

(** All functions of the table but the divisions. *)
Definition fnTotal (n : bytes) (f : fn) : Prop :=
  match f with
  | Fn1 h => forall o x, exists y, h o x = Ok y
  | Fn2 h => existsb (bytes_eqb n) binaryFuns = true -> forall o x y, exists z, h o x y = Ok z
  end.
Lemma table_total : Forall (fun nf => fnTotal (fst nf) (snd nf)) funTable.
Proof.
  unfold funTable.
  repeat (apply Forall_cons; [cbn [fst snd fnTotal];
    lazymatch goal with
    | |- forall o x, exists y, _ = _ => intros o x; cbv [mathRound mathAbs mathFun1 mathDegrees mathRadiansV mathNeg genericFloat genericInt]; total2
    | |- ?h = true -> forall o x y, exists z, mathDiv _ _ _ = _ => let X := fresh in intro X; vm_compute in X; discriminate X
    | |- ?h = true -> forall o x y, exists z, mathMod _ _ _ = _ => let X := fresh in intro X; vm_compute in X; discriminate X
    | |- _ => intros _ o x y; cbv [mathFun2 mathAdd mathSub mathMul addMultShared]; total2
    end|]).
  constructor.
Qed.
Lemma funLookup_in : forall t n f, funLookup n t = Some f -> In (n, f) t.
Proof.
  induction t as [|[n0 f0] t IH]; intros n f E; cbn [funLookup] in E; [discriminate|].
  destruct (bytes_eqb n n0) eqn:Eb; [apply bytes_eqb_eq in Eb; inversion E; subst; now left|right; auto].
Qed.
Definition is1 (f : option fn) : bool := match f with Some (Fn1 _) => true | _ => false end.
Definition is2 (f : option fn) : bool := match f with Some (Fn2 _) => true | _ => false end.
Lemma unary_is1 : forallb (fun n => is1 (funLookup n funTable)) unaryFuns = true.
Proof. vm_compute. reflexivity. Qed.
Lemma binary_is2 : forallb (fun n => is2 (funLookup n funTable)) binaryFuns = true.
Proof. vm_compute. reflexivity. Qed.

Lemma unary_total : forall n, In n unaryFuns -> exists f, funLookup n funTable = Some (Fn1 f) /\ forall o x, exists y, f o x = Ok y.
Proof.
  intros n Hn. pose proof unary_is1 as X. rewrite forallb_forall in X. specialize (X n Hn).
  destruct (funLookup n funTable) as [[f|f]|] eqn:E; try discriminate. exists f. split; auto.
  apply funLookup_in in E. pose proof table_total as T. rewrite Forall_forall in T. exact (T _ E).
Qed.
Lemma binary_total : forall n, In n binaryFuns -> exists f, funLookup n funTable = Some (Fn2 f) /\ forall o x y, exists z, f o x y = Ok z.
Proof.
  intros n Hn. pose proof binary_is2 as X. rewrite forallb_forall in X. specialize (X n Hn).
  destruct (funLookup n funTable) as [[f|f]|] eqn:E; try discriminate. exists f. split; auto.
  apply funLookup_in in E. pose proof table_total as T. rewrite Forall_forall in T. apply (T _ E).
  apply existsb_exists. exists n. split; auto. apply bytes_eqb_refl.
Qed.

Fixpoint allFun (l : list expr) : Prop := match l with [] => True | x :: r => funsOk x /\ allFun r end.
Lemma funsOk_func : forall n l, funsOk (XFunc n l) <->
  ((In n unaryFuns /\ 1 <= length l) \/ (In n binaryFuns /\ 2 <= length l)) /\ allFun l.
Proof. intros n l. cbn [funsOk]. assert (forall l, (fix go l := match l with [] => True | x :: r => funsOk x /\ go r end) l <-> allFun l) as X by (induction l0; cbn; tauto). now rewrite X. Qed.
