(** Compilation lays out the structure of the expressions. *)
From Verif Require Import Base MTokenizer MLit MFastVal SEvents SFormula SMerge MBinTree MExpr MTransform SCompile PBinTree PMerge.
From Coq Require Import List NArith ZArith Arith Lia Bool.
Import ListNotations.
Open Scope nat_scope.

(** The tree part of a transformer. *)
Definition tpart (t : tr) := (t_tree t, t_bucket t, t_active t).
Lemma tpart_inv : forall t t', tpart t' = tpart t -> t_tree t' = t_tree t /\ t_bucket t' = t_bucket t /\ t_active t' = t_active t.
Proof. intros t t' H. unfold tpart in H. now inversion H. Qed.

Ltac bind H x :=
  match type of H with
  | obind ?X _ = Ok _ => let E := fresh "E" in destruct X as [x| | |] eqn:E; [cbn [obind] in H|discriminate H..]
  end.

Lemma getExecNode_tpart : forall t r t' n, getExecNode t r = Ok (t', n) -> tpart t' = tpart t.
Proof. intros t r t' n H. unfold getExecNode in H. bind H x. destruct x. inversion H; subst. reflexivity. Qed.

Lemma storeExecNode_tpart : forall t n t' s, storeExecNode t n = Ok (t', s) -> tpart t' = tpart t.
Proof.
  intros t n t' s H. unfold storeExecNode in H. bind H x. destruct (Nat.eqb (x_store x) 0); inversion H; subst; reflexivity.
Qed.

Lemma getAfterNode_tpart : forall t n t', getAfterNode t n = Ok t' -> tpart t' = tpart t.
Proof. intros t n t' H. unfold getAfterNode in H. bind H x. destruct (x_after x); inversion H; subst; reflexivity. Qed.

Lemma pickBaseNode_tpart : forall t e t' b, pickBaseNode t e = Ok (t', b) -> tpart t' = tpart t.
Proof.
  intros t e t' b H. unfold pickBaseNode in H. bind H fs. bind H refs. bind H q. destruct q as [best na].
  bind H q. destruct q as [t1 n]. apply getExecNode_tpart in E2. destruct na.
  - bind H t2. apply getAfterNode_tpart in E3. inversion H; subst. congruence.
  - inversion H; subst. exact E2.
Qed.

Lemma dataRefIn_list : forall o l ctx t,
  (fix go (l : list expr) (t : tr) : outcome (tr * list dref) :=
     match l with
     | [] => Ok (t, [])
     | x :: r => do (t1, p) <- dataRefIn o x ctx t; do (t2, ps) <- go r t1; Ok (t2, p :: ps)
     end) l t = dataRefList o l ctx t.
Proof. induction l; intros ctx t; cbn; auto. destruct (dataRefIn o a ctx t) as [[t1 p]| | |]; cbn; auto. now rewrite IHl. Qed.

Lemma dataRefIn_func : forall o name l ctx t,
  dataRefIn o (XFunc name l) ctx t = do (t1, ps) <- dataRefList o l ctx t; Ok (t1, DFunc name ps).
Proof. intros. cbn [dataRefIn]. now rewrite dataRefIn_list. Qed.

Lemma dataRefIn_tpart : forall o e ctx t t' d, dataRefIn o e ctx t = Ok (t', d) -> tpart t' = tpart t.
Proof.
  intros o. induction e as [| |g|s0|s0|s0|a IH|l IH|l IH|r p|n l IH|m v i s IHi IHs|a IH|a IH|k l IHl r IHr] using expr_ind';
    intros ctx t t' d H;
    try (cbn [dataRefIn] in H; bind H c; inversion H; subst; reflexivity).
  - cbn [dataRefIn] in H. bind H rr. bind H q. destruct q as [t1 n]. apply getExecNode_tpart in E0.
    destruct (isBase ctx n); [inversion H; subst; auto|]. bind H q. destruct q as [t2 s].
    apply storeExecNode_tpart in E1. inversion H; subst. congruence.
  - rewrite dataRefIn_func in H. bind H q. destruct q as [t1 ps]. inversion H; subst. clear H.
    revert t t' ps E. induction IH as [|x r Hx Hr IHr]; intros t t' ps E; cbn [dataRefList] in E.
    + inversion E; auto.
    + bind E q. destruct q as [t1 p]. bind E q. destruct q as [t2 ps']. inversion E; subst.
      apply Hx in E0. apply IHr in E1. congruence.
Qed.

Lemma makeDataRef_tpart : forall o e ctx t t' d, makeDataRef o e ctx t = Ok (t', d) -> tpart t' = tpart t.
Proof.
  intros o e ctx t t' d H.
  assert (forall t' d, (do (t1, d) <- dataRefIn o e ctx t; Ok (t1, Some d)) = Ok (t', d) -> tpart t' = tpart t) as X.
  { clear. intros t' d H. bind H q. destruct q. inversion H; subst. eapply dataRefIn_tpart; eauto. }
  destruct e; try (eapply X; eauto; fail).
  cbn [makeDataRef] in H. bind H rr. bind H q. destruct q as [t1 n]. apply getExecNode_tpart in E0.
  destruct (isBase ctx n); [inversion H; subst; auto|]. bind H q. destruct q as [t2 s].
  apply storeExecNode_tpart in E1. inversion H; subst. congruence.
Qed.

Lemma addOp_tpart : forall t b o t', addOp t b o = Ok t' -> tpart t' = tpart t.
Proof.
  intros t [n|n] o t' H; cbn [addOp] in H; bind H x.
  - inversion H; reflexivity.
  - destruct (x_after x); inversion H; reflexivity.
Qed.

Lemma addLoop_tpart : forall t b o t', addLoop t b o = Ok t' -> tpart t' = tpart t.
Proof.
  intros t [n|n] o t' H; cbn [addLoop] in H; destruct (lp_target o) as [[]|]; try discriminate; bind H x.
  - inversion H; reflexivity.
  - destruct (x_after x); inversion H; reflexivity.
Qed.

(** ** One bucket grows into the layout of the expression *)

(** The active bucket is the last, still a leaf. *)
Definition openAt (t : tr) (T0 : list node) (p : nat) : Prop :=
  t_tree t = T0 ++ [Node NLeaf p 0 0] /\ t_bucket t = S (length T0) /\ t_active t = length T0.
Definition laidTo (t : tr) (T0 : list node) (p : nat) (f : form) : Prop :=
  t_tree t = T0 ++ lay p (length T0) f /\ t_bucket t = length T0 + fsize f.

Lemma openAt_tpart : forall t t' T0 p, tpart t' = tpart t -> openAt t T0 p -> openAt t' T0 p.
Proof. intros t t' T0 p H (H1 & H2 & H3). apply tpart_inv in H as (E1 & E2 & E3). repeat split; congruence. Qed.

Lemma openAt_leaf : forall t T0 p, openAt t T0 p -> laidTo t T0 p FLeaf.
Proof. intros t T0 p (H1 & H2 & H3). split; cbn; auto. lia. Qed.

Lemma idx_last : forall (A : Type) (l : list A) x r, idx (l ++ x :: r) (length l) = Ok x.
Proof. intros. unfold idx. rewrite nth_error_app2 by lia. now rewrite Nat.sub_diag. Qed.
Lemma upd_last : forall (A : Type) (l : list A) x y r, upd (l ++ x :: r) (length l) y = l ++ y :: r.
Proof. induction l; intros; cbn; auto. now rewrite IHl. Qed.

Lemma openLeft_spec : forall ty t T0 p, openAt t T0 p ->
  exists t', openLeft ty t = Ok t' /\ t_ctx t' = t_ctx t /\ t_heap t' = t_heap t /\ t_slot t' = t_slot t
    /\ openAt t' (T0 ++ [Node ty p (S (length T0)) 0]) (length T0).
Proof.
  intros ty t T0 p (H1 & H2 & H3). unfold openLeft, setType. rewrite H1, H3, idx_last. cbn [obind n_parent n_left n_right].
  rewrite upd_last. unfold newBucket, setTree, setLeft. cbn [t_tree t_active t_bucket t_heap t_slot t_ctx].
  rewrite H2, H3, <- app_assoc. cbn [app]. rewrite idx_last. cbn [obind n_type n_parent n_right].
  rewrite upd_last. eexists. split; [reflexivity|]. repeat split; cbn [t_tree t_active t_bucket t_ctx t_heap t_slot].
  - now rewrite <- app_assoc.
  - rewrite app_length. cbn. lia.
  - rewrite app_length. cbn. lia.
Qed.

Lemma openRight_spec : forall ty t T0 p f, 
  t_tree t = T0 ++ Node ty p (S (length T0)) 0 :: lay (length T0) (S (length T0)) f ->
  t_bucket t = S (length T0 + fsize f) ->
  exists t', openRight (length T0) t = Ok t' /\ t_ctx t' = t_ctx t /\ t_heap t' = t_heap t /\ t_slot t' = t_slot t
    /\ openAt t' (T0 ++ Node ty p (S (length T0)) (S (length T0) + fsize f) :: lay (length T0) (S (length T0)) f) (length T0).
Proof.
  intros ty t T0 p f H1 H2. unfold openRight, newBucket, setActive, setRight, setTree.
  cbn [t_tree t_active t_bucket t_heap t_slot t_ctx]. rewrite H1, H2, <- app_assoc. cbn [app].
  rewrite idx_last. cbn [obind n_type n_parent n_left]. rewrite upd_last.
  eexists. split; [reflexivity|]. repeat split; cbn [t_tree t_active t_bucket t_ctx t_heap t_slot].
  - rewrite <- app_assoc. reflexivity.
  - rewrite app_length. cbn [length]. rewrite lay_length. lia.
  - rewrite app_length. cbn [length]. rewrite lay_length. lia.
Qed.

Definition grows (k : tr -> outcome tr) (f : form) : Prop :=
  forall t T0 p t', openAt t T0 p -> k t = Ok t' -> laidTo t' T0 p f.

Lemma grows_not : forall k f, grows k f -> grows (transformNot k) (FNot f).
Proof.
  intros k f Hk t T0 p t' HO H. unfold transformNot in H.
  destruct (openLeft_spec NNot t T0 p HO) as (t1 & E & _ & _ & _ & HO1). rewrite E in H. cbn [obind] in H.
  apply (Hk _ _ _ _ HO1) in H as [HT HB]. split.
  - rewrite HT, <- app_assoc. cbn [app lay]. rewrite app_length. cbn. now rewrite Nat.add_1_r.
  - rewrite HB, app_length. cbn. lia.
Qed.

Lemma grows_bin : forall o k1 f1 k2 f2, grows k1 f1 -> grows k2 f2 ->
  grows (transformBin (btype o) k1 k2) (FBin o f1 f2).
Proof.
  intros o k1 f1 k2 f2 H1 H2 t T0 p t' HO H. unfold transformBin in H.
  destruct (openLeft_spec (btype o) t T0 p HO) as (t1 & E & _ & _ & _ & HO1). rewrite E in H. cbn [obind] in H.
  bind H t2. apply (H1 _ _ _ _ HO1) in E0 as [HT HB].
  rewrite <- app_assoc in HT. cbn [app] in HT. rewrite app_length in *. cbn [length] in *. rewrite Nat.add_1_r in *.
  assert (t_active t = length T0) as EA by apply HO. rewrite EA in H.
  destruct (openRight_spec (btype o) t2 T0 p f1 HT) as (t3 & E3 & _ & _ & _ & HO3); [lia|].
  rewrite E3 in H. cbn [obind] in H. apply (H2 _ _ _ _ HO3) in H as [HT' HB'].
  split.
  - rewrite HT', <- app_assoc. cbn [app lay]. unfold btype.
    rewrite app_length. cbn [length]. rewrite lay_length.
    now replace (length T0 + S (fsize f1)) with (S (length T0) + fsize f1) by lia.
  - rewrite HB', app_length. cbn [length fsize]. rewrite lay_length. lia.
Qed.

Lemma grows_cmp : forall o e op l r, grows (transformComparison o e op l r) FLeaf.
Proof.
  intros o e op l r t T0 p t' HO H. unfold transformComparison in H.
  bind H q. destruct q as [t1 b]. bind H q. destruct q as [t2 dl]. bind H q. destruct q as [t3 dr].
  apply openAt_leaf. eapply openAt_tpart; [|exact HO].
  apply pickBaseNode_tpart in E. apply makeDataRef_tpart in E0, E1. apply addOp_tpart in H. congruence.
Qed.

Lemma grows_exists : forall o a, grows (transformExists o a) FLeaf.
Proof.
  intros o a t T0 p t' HO H. unfold transformExists in H.
  bind H q. destruct q as [t1 b]. bind H q. destruct q as [t2 d].
  apply openAt_leaf. eapply openAt_tpart; [|exact HO].
  apply pickBaseNode_tpart in E. apply makeDataRef_tpart in E0. apply addOp_tpart in H. congruence.
Qed.

Lemma grows_loop : forall o m v i s k f, grows k f -> grows (transformLoop o m v i s k) (FLoop f).
Proof.
  intros o m v i s k f Hk t T0 p t' HO H. unfold transformLoop in H.
  bind H q. destruct q as [t1 b]. bind H q. destruct q as [t2 tg].
  apply pickBaseNode_tpart in E. apply makeDataRef_tpart in E0.
  assert (openAt t2 T0 p) as HO2 by (eapply openAt_tpart; [|exact HO]; congruence).
  destruct (openLeft_spec NLoop t2 T0 p HO2) as (t3 & E3 & _ & _ & _ & HO3). rewrite E3 in H. cbn [obind] in H.
  bind H t5. apply addLoop_tpart in E1. bind H t6.
  assert (openAt (pushContext t5 v (length (t_heap t3))) (T0 ++ [Node NLoop p (S (length T0)) 0]) (length T0)) as HO5.
  { eapply openAt_tpart; [|exact HO3]. etransitivity; [|exact E1]. reflexivity. }
  apply (Hk _ _ _ _ HO5) in E2 as [HT HB].
  unfold popContext in H. destruct (t_ctx t6) as [|[w n] c]; [discriminate|].
  destruct (Nat.eqb n (length (t_heap t3))); [|discriminate]. inversion H; subst. split; cbn [t_tree setCtx t_bucket].
  - rewrite HT, <- app_assoc. cbn [app lay]. rewrite app_length. cbn. now rewrite Nat.add_1_r.
  - rewrite HB, app_length. cbn. lia.
Qed.

Lemma grows_chain : forall o op ty l, ty = btype op -> Forall (fun e => grows (transformOne o e) (structure e)) l ->
  grows (transformChain o ty l) (joined op (map structure l)).
Proof.
  intros o op ty l -> HF. induction HF as [|a r Ha Hr IH].
  - intros t T0 p t' HO H. discriminate.
  - destruct r as [|b r]; [exact Ha|].
    change (joined op (map structure (a :: b :: r))) with (FBin op (structure a) (joined op (map structure (b :: r)))).
    change (transformChain o (btype op) (a :: b :: r)) with
      (transformBin (btype op) (transformOne o a) (transformChain o (btype op) (b :: r))).
    now apply grows_bin.
Qed.

Lemma grows_one : forall o e, grows (transformOne o e) (structure e).
Proof.
  intro o. induction e as [| |g|s0|s0|s0|a IH|l IH|l IH|r p|n l IH|m v i s IHi IHs|a IH|a IH|k l IHl r IHr] using expr_ind';
    try (intros t T0 q t' HO H; inversion H; subst; now apply openAt_leaf).
  - now apply grows_not.
  - intros t T0 p t' HO H. rewrite transformOne_and in H. revert HO H. now apply (grows_chain o BAnd).
  - intros t T0 p t' HO H. rewrite transformOne_or in H. revert HO H. now apply (grows_chain o BOr).
  - now apply grows_loop.
  - apply grows_exists.
  - apply grows_not, grows_exists.
  - destruct k; try apply grows_cmp. apply grows_not, grows_cmp.
Qed.

(** Several expressions; the bucket ids are those of their structures. *)
Lemma merge_spec : forall o es e t T0 p t' ids, openAt t T0 p -> transformMerge o (e :: es) t = Ok (t', ids) ->
  laidTo t' T0 p (structures e es) /\ ids = map fst (mbuckets (length T0) (structure e) (map structure es)).
Proof.
  intros o. unfold structures. induction es as [|e2 es IH]; intros e t T0 p t' ids HO H.
  - cbn [transformMerge] in H. bind H t1. inversion H; subst. split.
    + eapply grows_one; eauto.
    + cbn. f_equal. apply HO.
  - change (transformMerge o (e :: e2 :: es) t) with
      (do t1 <- openLeft NNeor t; do t2 <- transformOne o e t1; do t3 <- openRight (t_active t) t2;
       do (t4, ids) <- transformMerge o (e2 :: es) t3; Ok (t4, t_active t1 :: ids)) in H.
    destruct (openLeft_spec NNeor t T0 p HO) as (t1 & E & _ & _ & _ & HO1). rewrite E in H. cbn [obind] in H.
    bind H t2. apply (grows_one _ _ _ _ _ _ HO1) in E0 as [HT HB].
    rewrite <- app_assoc in HT. cbn [app] in HT. rewrite app_length in *. cbn [length] in *. rewrite Nat.add_1_r in *.
    assert (t_active t = length T0) as EA by apply HO. rewrite EA in H.
    destruct (openRight_spec NNeor t2 T0 p (structure e) HT) as (t3 & E3 & _ & _ & _ & HO3); [lia|].
    rewrite E3 in H. cbn [obind] in H. bind H q. destruct q as [t4 ids']. inversion H; subst.
    apply (IH _ _ _ _ _ _ HO3) in E0 as [[HT' HB'] Hids]. split; [split|].
    + rewrite HT', <- app_assoc. cbn [app lay map merged].
      rewrite app_length. cbn [length]. rewrite lay_length.
      now replace (length T0 + S (fsize (structure e))) with (S (length T0) + fsize (structure e)) by lia.
    + rewrite HB', app_length. cbn [length fsize map merged]. rewrite lay_length. lia.
    + cbn [map mbuckets fst]. f_equal.
      * destruct HO1 as (_ & _ & ->). rewrite app_length. cbn. lia.
      * rewrite Hids, app_length. cbn [length]. rewrite lay_length.
        now replace (length T0 + S (fsize (structure e))) with (S (length T0) + fsize (structure e)) by lia.
Qed.

Lemma openAt_tr0 : openAt tr0 [] 0.
Proof. repeat split. Qed.

(** What [transform] returns. *)
Theorem transform_spec : forall o es D, transform o es = Ok D ->
  (genExprs es = [] /\ D = MatchDef None [] (exprBuckets es []) 0) \/
  exists g gs t ids, genExprs es = g :: gs /\ transformMerge o (g :: gs) tr0 = Ok (t, ids)
    /\ t_tree t = lay 0 0 (structures g gs) /\ ids = map fst (mbuckets 0 (structure g) (map structure gs))
    /\ D = MatchDef (Some (t_heap t)) (lay 0 0 (structures g gs)) (exprBuckets es ids) (t_slot t).
Proof.
  intros o es D H. unfold transform in H. destruct (genExprs es) as [|g gs] eqn:Eg.
  - left. inversion H; subst. auto.
  - right. bind H q. destruct q as [t ids]. pose proof E as E'.
    apply (merge_spec _ _ _ _ _ _ _ _ openAt_tr0) in E' as [[HT HB] Hids]. cbn [app length] in *.
    exists g, gs, t, ids. rewrite <- HT.
    destruct (validate (t_tree t)) as [u| | |]; try discriminate.
    destruct (Nat.eqb (length (t_tree t)) (t_bucket t)); [|discriminate]. inversion H; subst. auto 10.
Qed.

(** Validation cannot fail after a successful compilation. *)
Theorem transform_validates : forall o es g gs t ids, genExprs es = g :: gs ->
  transformMerge o (g :: gs) tr0 = Ok (t, ids) ->
  transform o es = Ok (MatchDef (Some (t_heap t)) (t_tree t) (exprBuckets es ids) (t_slot t))
  /\ validate (t_tree t) = Ok tt /\ length (t_tree t) = t_bucket t.
Proof.
  intros o es g gs t ids Eg E. unfold transform. rewrite Eg, E. cbn [obind].
  apply (merge_spec _ _ _ _ _ _ _ _ openAt_tr0) in E as [[HT HB] Hids]. cbn [app length] in *.
  assert (validate (t_tree t) = Ok tt) as ->.
  { apply validate_iff. exists (structures g gs). rewrite HT. split; [apply laid_shaped, lay_laid|apply lay_length]. }
  assert (length (t_tree t) = t_bucket t) as EL by (rewrite HT, HB, lay_length; reflexivity).
  rewrite EL, Nat.eqb_refl. auto.
Qed.
