(** The heap of every compiled filter is in the order [PTerm] asks for. *)
From Verif Require Import Base MTokenizer MLit MFastVal SEvents SFormula SMerge MBinTree MExpr SExpr MTransform SCompile SProper MMatcher PBinTree PMerge PExpr PCompile PTerm.
From Coq Require Import List NArith ZArith Arith Lia Bool.
Import ListNotations.
Open Scope nat_scope.

(** [L] tells for every node of the heap whether it lies inside a loop. *)
Definition loopIn (L : list bool) (n : nat) (l : loopnode) : Prop :=
  n < lp_node l /\ nth_error L (lp_node l) = Some true /\ lp_bucket l <> 0.
Definition refNode (b : nref) : nat := match b with RNode n => n | RAfter n => n end.
Definition nodeIn (L : list bool) (n : nat) (x : execnode) : Prop :=
  exists b, nth_error L n = Some b
    /\ Forall (fun kc => n < snd kc /\ nth_error L (snd kc) = Some b) (x_elems x)
    /\ Forall (loopIn L n) (x_loops x)
    /\ (forall af, x_after x = Some af -> Forall (loopIn L n) (af_loops af) /\ (b = true -> af_loops af = [])).
Definition heapIn (H : list execnode) (L : list bool) : Prop :=
  length L = length H /\ forall n x, nth_error H n = Some x -> nodeIn L n x.

Lemma nth_ext : forall A (L L2 : list A) n b, nth_error L n = Some b -> nth_error (L ++ L2) n = Some b.
Proof. intros A L L2 n b H. rewrite nth_error_app1; auto. apply nth_error_Some. congruence. Qed.
Lemma loopIn_ext : forall L L2 n l, loopIn L n l -> loopIn (L ++ L2) n l.
Proof. intros L L2 n l (H1 & H2 & H3). split; [auto|split; [now apply nth_ext|auto]]. Qed.
Lemma nodeIn_ext : forall L L2 n x, nodeIn L n x -> nodeIn (L ++ L2) n x.
Proof.
  intros L L2 n x (b & H0 & H1 & H2 & H3). exists b. split; [now apply nth_ext|]. split; [|split].
  - eapply Forall_impl; [|exact H1]. intros kc [A B]. split; auto. now apply nth_ext.
  - eapply Forall_impl; [|exact H2]. intros l. apply loopIn_ext.
  - intros af E. destruct (H3 af E) as [A B]. split; auto. eapply Forall_impl; [|exact A]. intros l. apply loopIn_ext.
Qed.

Lemma heapIn_upd : forall H L n x, heapIn H L -> (n < length H -> nodeIn L n x) -> heapIn (upd H n x) L.
Proof.
  intros H L n x [HL HN] Hx. split; [now rewrite upd_length|]. intros m y E.
  destruct (Nat.eq_dec m n) as [->|Hne].
  - assert (n < length H) as Hn by (rewrite <- (upd_length _ H n x); apply nth_error_Some; congruence).
    rewrite nth_error_upd_same in E by auto. injection E as <-. auto.
  - rewrite nth_error_upd_other in E by auto. auto.
Qed.
Lemma heapIn_app : forall H L b, heapIn H L -> heapIn (H ++ [emptyExec]) (L ++ [b]).
Proof.
  intros H L b [HL HN]. split; [rewrite !app_length; cbn; lia|]. intros n x E.
  destruct (Nat.lt_ge_cases n (length H)) as [Hn|Hn].
  - rewrite nth_error_app1 in E by auto. apply nodeIn_ext. auto.
  - rewrite nth_error_app2 in E by auto. destruct (n - length H) as [|k] eqn:Ek.
    + injection E as <-. exists b. rewrite nth_error_app2 by lia. rewrite HL, Ek. cbn.
      repeat split; auto; discriminate.
    + destruct k; discriminate.
Qed.

Lemma walk_in : forall path h n h' n' L b, heapIn h L -> nth_error L n = Some b -> walk h n path = Ok (h', n') ->
  exists L2, heapIn h' (L ++ L2) /\ nth_error (L ++ L2) n' = Some b.
Proof.
  induction path as [|k path IH]; intros h n h' n' L b HL Hn H; cbn [walk] in H.
  - injection H as <- <-. exists []. rewrite app_nil_r. auto.
  - bind H x. apply idx_inv in E. destruct HL as [HL HN]. destruct (HN _ _ E) as (b' & E0 & E1 & E2 & E3).
    assert (b' = b) by congruence. subst b'.
    destruct (lookup k (x_elems x)) as [c|] eqn:El.
    + assert (exists k', In (k', c) (x_elems x)) as [k' Hin].
      { clear - El. induction (x_elems x) as [|[k0 c0] r IHr]; cbn [lookup] in El; [discriminate|].
        destruct (bytes_eqb k k0); [injection El as ->; exists k0; now left|]. destruct (IHr El) as [k' ?]. exists k'. now right. }
      rewrite Forall_forall in E1. destruct (E1 _ Hin) as [_ Hc]. eapply IH; eauto. split; auto.
    + assert (n < length h) as Hlt by (apply nth_error_Some; congruence).
      edestruct (IH (upd h n (setElems x (x_elems x ++ [(k, length h)])) ++ [emptyExec]) (length h) h' n' (L ++ [b]) b) as (L2 & A1 & A2); auto.
      * assert (heapIn (h ++ [emptyExec]) (L ++ [b])) as HA by (apply heapIn_app; split; auto).
        replace (upd h n (setElems x (x_elems x ++ [(k, length h)])) ++ [emptyExec])
          with (upd (h ++ [emptyExec]) n (setElems x (x_elems x ++ [(k, length h)]))).
        2: { clear - Hlt. generalize (setElems x (x_elems x ++ [(k, length h)])) as y0. intro y0. revert n Hlt. induction h as [|y h IHh]; intros n Hlt; cbn in *; [lia|].
             destruct n; cbn; auto. f_equal. apply IHh. lia. }
        apply heapIn_upd; auto. intros _. exists b. split; [now apply nth_ext|]. cbn [setElems x_elems x_loops x_after]. split; [|split].
        -- apply Forall_app. split.
           ++ eapply Forall_impl; [|exact E1]. intros kc [A B]. split; auto. now apply nth_ext.
           ++ constructor; [|constructor]. cbn [snd]. split; auto. rewrite nth_error_app2 by lia. now rewrite HL, Nat.sub_diag.
        -- eapply Forall_impl; [|exact E2]. intros l. apply loopIn_ext.
        -- intros af Ea. destruct (E3 af Ea) as [A B]. split; auto. eapply Forall_impl; [|exact A]. intros l. apply loopIn_ext.
      * rewrite nth_error_app2 by lia. now rewrite HL, Nat.sub_diag.
      * exists ([b] ++ L2). rewrite app_assoc. auto.
Qed.

(** The transformer: root outside, context nodes inside. *)
Definition trIn (t : tr) (L : list bool) : Prop :=
  heapIn (t_heap t) L /\ 1 <= t_bucket t /\ nth_error L 0 = Some false /\ Forall (fun vn => nth_error L (snd vn) = Some true) (t_ctx t).
Definition ctxb (t : tr) : bool := match t_ctx t with [] => false | _ => true end.

(** A step that keeps the context and only adds nodes. *)
Definition grown (t t' : tr) (L : list bool) : Prop := t_ctx t' = t_ctx t /\ exists L2, trIn t' (L ++ L2).

Lemma trIn_ext : forall t t' L L2, trIn t L -> t_ctx t' = t_ctx t -> t_bucket t' = t_bucket t -> heapIn (t_heap t') (L ++ L2) -> trIn t' (L ++ L2).
Proof.
  intros t t' L L2 (H1 & HB & H2 & H3) Ec Eb Hh. split; [auto|]. split; [lia|]. split; [now apply nth_ext|]. rewrite Ec.
  eapply Forall_impl; [|exact H3]. intros vn. apply nth_ext.
Qed.

Lemma getExecNode_in : forall t r t' n L b, trIn t L ->
  nth_error L (match fst r with Some c => c | None => 0 end) = Some b ->
  getExecNode t r = Ok (t', n) ->
  t_ctx t' = t_ctx t /\ exists L2, trIn t' (L ++ L2) /\ nth_error (L ++ L2) n = Some b.
Proof.
  intros t r t' n L b HI Hb H. unfold getExecNode in H. bind H q. destruct q as [h n']. injection H as <- <-.
  split; [reflexivity|]. destruct (walk_in _ _ _ _ _ _ _ (proj1 HI) Hb E) as (L2 & A1 & A2). exists L2. split; auto.
  eapply trIn_ext; eauto.
Qed.

(** The node of a resolved reference. *)
Lemma resolve_ctx : forall t f c p L, trIn t L -> resolveRef t f = Ok (c, p) ->
  (fst f = 0 /\ c = None \/ exists n r, t_ctx t = (fst f, n) :: r /\ c = Some n) /\
  exists b, nth_error L (match c with Some c => c | None => 0 end) = Some b.
Proof.
  intros t f c p L (H1 & HB & H2 & H3) H. unfold resolveRef, getContext in H.
  destruct (Nat.eqb (fst f) 0) eqn:E0.
  - cbn [obind] in H. injection H as <- <-. apply Nat.eqb_eq in E0. split; eauto.
  - destruct (t_ctx t) as [|[w n] r] eqn:Ec; [discriminate|]. destruct (Nat.eqb w (fst f)) eqn:Ew; [|discriminate].
    cbn [obind] in H. injection H as <- <-. apply Nat.eqb_eq in Ew. subst w. split; [right; eauto|].
    inversion H3; subst. eauto.
Qed.

Lemma cur_in : forall t L, trIn t L -> nth_error L (match currentContext t with Some c => c | None => 0 end) = Some (ctxb t).
Proof.
  intros t L (H1 & HB & H2 & H3). unfold currentContext, ctxb. destruct (t_ctx t) as [|[w n] r]; auto.
  inversion H3; subst; auto.
Qed.

Lemma storeExecNode_in : forall t n t' s L, trIn t L -> storeExecNode t n = Ok (t', s) -> t_ctx t' = t_ctx t /\ trIn t' L.
Proof.
  intros t n t' s L HI H. unfold storeExecNode in H. bind H x. apply idx_inv in E.
  destruct (Nat.eqb (x_store x) 0); injection H as <- <-; [|auto]. split; [reflexivity|].
  destruct HI as (H1 & HB & H2 & H3). split; [|auto]. cbn [t_heap]. apply heapIn_upd; auto. intros _.
  destruct H1 as [_ HN]. exact (HN _ _ E).
Qed.

Lemma findBest_cur : forall t refs r na, findBestRoot t refs = Ok (r, na) -> fst r = currentContext t.
Proof.
  intros t refs r na H. unfold findBestRoot in H. destruct (map snd _) as [|p ps].
  - injection H as <- <-. reflexivity.
  - bind H c. injection H as <- <-. reflexivity.
Qed.

(** The base node of an expression lies inside a loop exactly if we compile inside one. *)
Lemma pickBaseNode_in : forall t e t' b L, trIn t L -> pickBaseNode t e = Ok (t', b) ->
  t_ctx t' = t_ctx t /\ exists L2, trIn t' (L ++ L2) /\
    nth_error (L ++ L2) (refNode b) = Some (ctxb t).
Proof.
  intros t e t' b L HI H. unfold pickBaseNode in H. bind H fs. bind H refs. bind H q. destruct q as [best na].
  bind H q. destruct q as [t1 n]. apply findBest_cur in E1.
  destruct (getExecNode_in t best t1 n L (ctxb t) HI) as (Ec & L2 & A1 & A2); auto.
  { rewrite E1. now apply cur_in. }
  destruct na.
  - bind H t2. injection H as <- <-. unfold getAfterNode in E3. bind E3 x. apply idx_inv in E4.
    destruct (x_after x) eqn:Ea; injection E3 as <-.
    + split; auto. exists L2. auto.
    + split; [exact Ec|]. exists L2. split; auto.
      destruct A1 as (H1 & HB & H2 & H3). split; [|auto]. cbn [t_heap setHeap]. apply heapIn_upd; auto. intros _.
      destruct H1 as [_ HN]. destruct (HN _ _ E4) as (b & B0 & B1 & B2 & B3). exists b. split; auto. split; auto. split; auto.
      cbn. intros af Eaf. injection Eaf as <-. cbn. auto.
  - injection H as <- <-. split; auto. exists L2. auto.
Qed.

Lemma dataRefIn_in : forall o e ctx t t' d L, trIn t L -> dataRefIn o e ctx t = Ok (t', d) -> grown t t' L.
Proof.
  intros o. induction e as [| |g|sa|sa|sa|a IH|l IH|l IH|r p|n l IH|m v i s IHi IHs|a IH|a IH|k l IHl r IHr] using expr_ind';
    intros ctx t t' d L HI H;
    try (cbn [dataRefIn] in H; bind H c; inversion H; subst; split; [reflexivity|]; exists []; now rewrite app_nil_r).
  - cbn [dataRefIn] in H. bind H rr. destruct rr as [c p']. destruct (resolve_ctx _ _ _ _ _ HI E) as (_ & b & Hb).
    bind H q. destruct q as [t1 n].
    destruct (getExecNode_in t (c, p') t1 n L b HI Hb E0) as (Ec & L2 & A1 & A2).
    destruct (isBase ctx n); [injection H as <- <-; split; eauto|]. bind H q. destruct q as [t2 s].
    injection H as <- <-. destruct (storeExecNode_in _ _ _ _ _ A1 E1) as [Ec2 A3]. split; [congruence|eauto].
  - rewrite dataRefIn_func in H. bind H q. destruct q as [t1 ps]. injection H as <- <-.
    revert t t1 ps L HI E. induction IH as [|x r Hx Hr IHr]; intros t t' ps L HI E; cbn [dataRefList] in E.
    + injection E as <- <-. split; [reflexivity|]. exists []. now rewrite app_nil_r.
    + bind E q. destruct q as [t1 p]. bind E q. destruct q as [t2 ps']. injection E as <- <-.
      destruct (Hx _ _ _ _ _ HI E0) as (Ec & L2 & A1). destruct (IHr _ _ _ _ A1 E1) as (Ec2 & L3 & A2).
      split; [congruence|]. exists (L2 ++ L3). now rewrite app_assoc.
Qed.

Lemma makeDataRef_in : forall o e ctx t t' d L, trIn t L -> makeDataRef o e ctx t = Ok (t', d) -> grown t t' L.
Proof.
  intros o e ctx t t' d L HI H.
  assert (forall t' d, (do (t1, d) <- dataRefIn o e ctx t; Ok (t1, Some d)) = Ok (t', d) -> grown t t' L) as X.
  { clear - HI. intros t' d H. bind H q. destruct q. injection H as <- <-. eapply dataRefIn_in; eauto. }
  destruct e; try (eapply X; eauto; fail).
  cbn [makeDataRef] in H. bind H rr. destruct rr as [c p']. destruct (resolve_ctx _ _ _ _ _ HI E) as (_ & b & Hb).
  bind H q. destruct q as [t1 n].
  destruct (getExecNode_in t (c, p') t1 n L b HI Hb E0) as (Ec & L2 & A1 & A2).
  destruct (isBase ctx n); [injection H as <- <-; split; eauto|]. bind H q. destruct q as [t2 s].
  injection H as <- <-. destruct (storeExecNode_in _ _ _ _ _ A1 E1) as [Ec2 A3]. split; [congruence|eauto].
Qed.

Lemma addOp_in : forall t b op t' L, trIn t L -> addOp t b op = Ok t' -> t_ctx t' = t_ctx t /\ trIn t' L.
Proof.
  intros t b op t' L HI H. destruct b as [n|n]; cbn [addOp] in H; bind H x; apply idx_inv in E.
  - injection H as <-. split; [reflexivity|]. destruct HI as (H1 & HB & H2 & H3). split; [|auto].
    apply heapIn_upd; auto. intros _. destruct H1 as [_ HN]. exact (HN _ _ E).
  - destruct (x_after x) as [a|] eqn:Ea; [|discriminate]. injection H as <-. split; [reflexivity|].
    destruct HI as (H1 & HB & H2 & H3). split; [|auto]. apply heapIn_upd; auto. intros _.
    destruct H1 as [_ HN]. destruct (HN _ _ E) as (b & B0 & B1 & B2 & B3). exists b. split; auto. split; auto. split; auto.
    cbn. intros af Eaf. injection Eaf as <-. cbn. now apply B3.
Qed.

Lemma atom_in : forall (k : tr -> outcome tr) o e l,
  (forall t t', k t = Ok t' -> exists t1 b, pickBaseNode t e = Ok (t1, b) /\
     exists t2 op, (fix go l t := match l with [] => Ok t | x :: r => do (t', _) <- makeDataRef o x b t; go r t' end) l t1 = Ok t2 /\ addOp t2 b op = Ok t') ->
  forall t t' L, trIn t L -> k t = Ok t' -> grown t t' L.
Proof.
  intros k o e l Hk t t' L HI H. destruct (Hk _ _ H) as (t1 & b & E1 & t2 & op & E2 & E3). clear Hk H.
  destruct (pickBaseNode_in _ _ _ _ _ HI E1) as (Ec & L2 & A1 & _). clear E1.
  assert (grown t1 t2 (L ++ L2)) as (Ec2 & L3 & A2).
  { clear E3 Ec HI. revert t1 L2 A1 E2. induction l as [|x r IH]; intros t1 L2 A1 E2.
    - injection E2 as <-. split; [reflexivity|]. exists []. now rewrite app_nil_r.
    - bind E2 q. destruct q as [t3 d]. destruct (makeDataRef_in _ _ _ _ _ _ _ A1 E) as (Ec & L3 & A3).
      rewrite <- app_assoc in A3. destruct (IH _ _ A3 E2) as (Ec2 & L4 & A4). split; [congruence|].
      exists (L3 ++ L4). now rewrite !app_assoc in *. }
  destruct (addOp_in _ _ _ _ _ A2 E3) as [Ec3 A3]. split; [congruence|]. exists (L2 ++ L3). now rewrite app_assoc.
Qed.
Lemma exists_in : forall o a t t' L, trIn t L -> transformExists o a t = Ok t' -> grown t t' L.
Proof.
  intros o a. apply (atom_in _ o (XExists a) [a]). intros t t' H. unfold transformExists in H.
  bind H q. destruct q as [t1 b]. bind H q. destruct q as [t2 d]. exists t1, b. split; auto.
  rewrite E0. cbn [obind]. eauto.
Qed.
Lemma cmp_in : forall o e op l r t t' L, trIn t L -> transformComparison o e op l r t = Ok t' -> grown t t' L.
Proof.
  intros o e op l r. apply (atom_in _ o e [l; r]). intros t t' H. unfold transformComparison in H.
  bind H q. destruct q as [t1 b]. bind H q. destruct q as [t2 dl]. bind H q. destruct q as [t3 dr]. exists t1, b. split; auto.
  rewrite E0. cbn [obind]. rewrite E1. cbn [obind]. eauto.
Qed.

(** Opening a bucket leaves the heap alone; the new bucket is not the root. *)
Lemma trIn_bucket : forall t t' L, trIn t L -> t_heap t' = t_heap t -> t_ctx t' = t_ctx t -> 1 <= t_bucket t' -> trIn t' L.
Proof. intros t t' L (H1 & HB & H2 & H3) E1 E2 Hb. split; [now rewrite E1|]. split; [auto|]. split; [auto|]. now rewrite E2. Qed.
Lemma openLeft_in : forall ty t t' L, trIn t L -> openLeft ty t = Ok t' ->
  t_ctx t' = t_ctx t /\ trIn t' L /\ t_heap t' = t_heap t /\ t_active t' = t_bucket t.
Proof.
  intros ty t t' L HI H. unfold openLeft in H. bind H T. bind H T1. injection H as <-. split; [reflexivity|]. split; [|auto].
  eapply trIn_bucket; eauto. cbn. lia.
Qed.
Lemma openRight_in : forall base t t' L, trIn t L -> openRight base t = Ok t' -> t_ctx t' = t_ctx t /\ trIn t' L.
Proof.
  intros base t t' L HI H. unfold openRight in H. bind H T. injection H as <-. split; [reflexivity|].
  eapply trIn_bucket; eauto. cbn. lia.
Qed.

(** ** Inside a loop, only its variable and the document can be referred to *)

Lemma resolveRefs_inv : forall t fs refs, resolveRefs t fs = Ok refs -> Forall2 (fun f r => resolveRef t f = Ok r) fs refs.
Proof.
  intros t. induction fs as [|f fs IH]; intros refs H; cbn [resolveRefs] in H.
  - injection H as <-. constructor.
  - bind H x. bind H xs. injection H as <-. constructor; auto.
Qed.
Lemma mentions_fewer : forall e vs f, mentions e vs f -> forall ws, incl ws vs -> mentions e ws f.
Proof.
  intros e vs f H. induction H; intros ws Hi.
  - constructor. auto.
  - eapply men_func; eauto.
  - apply men_not; auto.
  - eapply men_and; eauto.
  - eapply men_or; eauto.
  - apply men_in; auto.
  - apply men_body. apply IHmentions. intros z [<-|Hz]; [now left|right; auto].
  - apply men_exists; auto.
  - apply men_notexists; auto.
  - apply men_l; auto.
  - apply men_r; auto.
Qed.
Lemma pick_refs : forall t e t' b v n c, t_ctx t = (v, n) :: c -> pickBaseNode t e = Ok (t', b) ->
  forall vs f, mentions e vs f -> fst f = 0 \/ fst f = v.
Proof.
  intros t e t' b v n c Hc H vs f Hm. unfold pickBaseNode in H. bind H fs. bind H refs. clear H.
  assert (mentions e [] f) as Hm0 by (eapply mentions_fewer; [exact Hm|intros z []]).
  pose proof (fetch_rec_ok e [] []) as FO. unfold fetchExprFieldRefs in E. rewrite E in FO. destruct FO as (_ & FM & _).
  assert (In f fs) as Hin by (apply FM; auto).
  apply resolveRefs_inv in E0. clear - E0 Hin Hc.
  induction E0 as [|f' r fs' rs Hr HF IH]; [contradiction|]. destruct Hin as [->|Hin]; auto.
  unfold resolveRef, getContext in Hr. destruct (Nat.eqb (fst f) 0) eqn:E0; [left; now apply Nat.eqb_eq|].
  rewrite Hc in Hr. destruct (Nat.eqb v (fst f)) eqn:Ev; [|discriminate]. right. symmetry. now apply Nat.eqb_eq.
Qed.

Definition keepsCtx (k : tr -> outcome tr) : Prop := forall t t', k t = Ok t' -> t_ctx t' = t_ctx t.
Lemma getExec_ctx : forall t r t' n, getExecNode t r = Ok (t', n) -> t_ctx t' = t_ctx t.
Proof. intros t r t' n H. unfold getExecNode in H. bind H q. destruct q. now injection H as <- <-. Qed.
Lemma store_ctx : forall t n t' s, storeExecNode t n = Ok (t', s) -> t_ctx t' = t_ctx t.
Proof. intros t n t' s H. unfold storeExecNode in H. bind H x. destruct (Nat.eqb (x_store x) 0); now injection H as <- <-. Qed.
Lemma pick_ctx : forall t e t' b, pickBaseNode t e = Ok (t', b) -> t_ctx t' = t_ctx t.
Proof.
  intros t e t' b H. unfold pickBaseNode in H. bind H fs. bind H refs. bind H q. destruct q as [best na]. bind H q. destruct q as [t1 n].
  apply getExec_ctx in E2. destruct na; [|now injection H as <- <-]. bind H t2. injection H as <- <-. unfold getAfterNode in E3.
  bind E3 x. destruct (x_after x); injection E3 as <-; auto.
Qed.
Lemma dataRefIn_ctx : forall o e b t t' d, dataRefIn o e b t = Ok (t', d) -> t_ctx t' = t_ctx t.
Proof.
  intros o e. induction e as [| |g|sa|sa|sa|a IH|l IH|l IH|r p|n l IH|m v i s IHi IHs|a IH|a IH|k l r IHl IHr] using expr_ind'; intros b t t' d H;
    try (cbn [dataRefIn] in H; bind H c; now injection H as <- <-).
  - cbn [dataRefIn] in H. bind H rr. bind H q. destruct q as [t1 n]. apply getExec_ctx in E0. destruct (isBase b n).
    + now injection H as <- <-.
    + bind H q. destruct q as [t2 s]. injection H as <- <-. apply store_ctx in E1. congruence.
  - cbn [dataRefIn] in H. bind H q. destruct q as [t1 ps]. injection H as <- <-.
    revert t t1 ps E. induction IH as [|x r Hx HF IHr]; intros t t1 ps E.
    + now injection E as <- <-.
    + bind E q. destruct q as [t2 d2]. apply Hx in E0. bind E q. destruct q as [t3 d3]. injection E as <- <-. apply IHr in E1. congruence.
Qed.
Lemma makeDataRef_ctx : forall o e b t t' d, makeDataRef o e b t = Ok (t', d) -> t_ctx t' = t_ctx t.
Proof.
  intros o e b t t' d H.
  assert (forall x, (do (t1, d) <- dataRefIn o x b t; Ok (t1, Some d)) = Ok (t', d) -> t_ctx t' = t_ctx t) as X.
  { intros x H0. bind H0 q. destruct q as [t1 d1]. injection H0 as <- <-. eapply dataRefIn_ctx; eauto. }
  destruct e; try (eapply X; exact H). cbn [makeDataRef] in H. bind H rr. bind H q. destruct q as [t1 n].
  apply getExec_ctx in E0. destruct (isBase b n).
  - now injection H as <- <-.
  - bind H q. destruct q as [t2 s]. injection H as <- <-. apply store_ctx in E1. congruence.
Qed.
Lemma addOp_ctx : forall t b op t', addOp t b op = Ok t' -> t_ctx t' = t_ctx t.
Proof.
  intros t b op t' H. destruct b; cbn [addOp] in H; bind H x; [now injection H as <-|]. destruct (x_after x); [now injection H as <-|discriminate].
Qed.
Lemma addLoop_ctx : forall t b l t', addLoop t b l = Ok t' -> t_ctx t' = t_ctx t.
Proof.
  intros t b l t' H. destruct b; cbn [addLoop] in H; destruct (lp_target l) as [[]|]; try discriminate; bind H x; try (now injection H as <-).
  destruct (x_after x); [now injection H as <-|discriminate].
Qed.
Lemma openLeft_ctx : forall ty t t', openLeft ty t = Ok t' -> t_ctx t' = t_ctx t.
Proof. intros ty t t' H. unfold openLeft in H. bind H T. bind H T1. now injection H as <-. Qed.
Lemma openRight_ctx : forall b t t', openRight b t = Ok t' -> t_ctx t' = t_ctx t.
Proof. intros b t t' H. unfold openRight in H. bind H T. now injection H as <-. Qed.
Lemma exists_ctx : forall o a, keepsCtx (transformExists o a).
Proof.
  intros o a t t' H. unfold transformExists in H. bind H q. destruct q as [t1 b]. bind H q. destruct q as [t2 d].
  apply pick_ctx in E. apply makeDataRef_ctx in E0. apply addOp_ctx in H. congruence.
Qed.
Lemma cmp_ctx : forall o e op l r, keepsCtx (transformComparison o e op l r).
Proof.
  intros o e op l r t t' H. unfold transformComparison in H. bind H q. destruct q as [t1 b]. bind H q. destruct q as [t2 d]. bind H q. destruct q as [t3 d3].
  apply pick_ctx in E. apply makeDataRef_ctx in E0. apply makeDataRef_ctx in E1. apply addOp_ctx in H. congruence.
Qed.
Lemma not_ctx : forall k, keepsCtx k -> keepsCtx (transformNot k).
Proof. intros k Hk t t' H. unfold transformNot in H. bind H t1. apply openLeft_ctx in E. apply Hk in H. congruence. Qed.
Lemma bin_ctx : forall ty k1 k2, keepsCtx k1 -> keepsCtx k2 -> keepsCtx (transformBin ty k1 k2).
Proof.
  intros ty k1 k2 H1 H2 t t' H. unfold transformBin in H. bind H t1. bind H t2. bind H t3.
  apply openLeft_ctx in E. apply H1 in E0. apply openRight_ctx in E1. apply H2 in H. congruence.
Qed.
Lemma loop_ctx : forall o m v i s k, keepsCtx k -> keepsCtx (transformLoop o m v i s k).
Proof.
  intros o m v i s k Hk t t' H. unfold transformLoop in H. bind H q. destruct q as [t1 b]. bind H q. destruct q as [t2 tg]. bind H t3. bind H t5. bind H t6.
  apply pick_ctx in E. apply makeDataRef_ctx in E0. apply openLeft_ctx in E1. apply addLoop_ctx in E2. apply Hk in E3.
  unfold popContext in H. rewrite E3 in H. cbn [pushContext setCtx t_ctx] in H. rewrite Nat.eqb_refl in H. injection H as <-.
  cbn [setCtx t_ctx setHeap] in *. congruence.
Qed.
Lemma one_ctx : forall o e, keepsCtx (transformOne o e).
Proof.
  intros o e. induction e as [| |g|sa|sa|sa|a IH|l IH|l IH|r p|n l IH|m v i s IHi IHs|a IH|a IH|k l r IHl IHr] using expr_ind';
    try (intros t t' H; cbn [transformOne] in H; now injection H as <-).
  - now apply not_ctx.
  - intros t t' H. rewrite transformOne_and in H. revert t t' H.
    induction IH as [|a r Ha HF IHr]; intros t t' H; [discriminate|]. destruct r as [|b r]; [now apply Ha|].
    revert H. now apply bin_ctx.
  - intros t t' H. rewrite transformOne_or in H. revert t t' H.
    induction IH as [|a r Ha HF IHr]; intros t t' H; [discriminate|]. destruct r as [|b r]; [now apply Ha|].
    revert H. now apply bin_ctx.
  - now apply loop_ctx.
  - apply exists_ctx.
  - apply not_ctx, exists_ctx.
  - destruct k; try apply cmp_ctx. apply not_ctx, cmp_ctx.
Qed.

Definition seesOnly (k : tr -> outcome tr) (e : expr) : Prop := forall t t' v n c, t_ctx t = (v, n) :: c -> k t = Ok t' ->
  forall vs f, mentions e vs f -> fst f = 0 \/ fst f = v.
Lemma one_sees : forall o e, proper e = true -> seesOnly (transformOne o e) e.
Proof.
  intros o e. induction e as [| |g|sa|sa|sa|a IH|l IH|l IH|r p|n l IH|m w i s IHi IHs|a IH|a IH|k l r IHl IHr] using expr_ind';
    intros HP t t' v c cs Hc H vs f Hm; cbn [proper] in HP; try discriminate; try (inversion Hm; fail).
  - cbn [transformOne] in H. unfold transformNot in H. bind H t1. apply openLeft_ctx in E. inversion Hm; subst.
    eapply (IH HP t1 t' v c cs); [congruence|exact H|eassumption].
  - rewrite transformOne_and in H. inversion Hm as [| | |? x ? ? Hx Hmx| | | | | | |]; subst. clear Hm.
    revert t t' Hc H. induction IH as [|a r Ha HF IHr]; intros t t' Hc H; [contradiction|].
    cbn [forallb] in HP. apply andb_true_iff in HP as [HP1 HP2].
    destruct r as [|b r].
    + destruct Hx as [->|[]]. eapply (Ha HP1 t); eauto.
    + cbn [transformChain] in H. unfold transformBin in H. bind H t1. bind H t2. bind H t3.
      apply openLeft_ctx in E. pose proof (one_ctx _ _ _ _ E0) as Ec2. apply openRight_ctx in E1.
      destruct Hx as [->|Hx].
      * eapply (Ha HP1 t1 _ v c cs); [congruence|exact E0|exact Hmx].
      * eapply (IHr HP2 Hx t3); [congruence|exact H].
  - rewrite transformOne_or in H. inversion Hm as [| | | |? x ? ? Hx Hmx| | | | | |]; subst. clear Hm.
    revert t t' Hc H. induction IH as [|a r Ha HF IHr]; intros t t' Hc H; [contradiction|].
    cbn [forallb] in HP. apply andb_true_iff in HP as [HP1 HP2].
    destruct r as [|b r].
    + destruct Hx as [->|[]]. eapply (Ha HP1 t); eauto.
    + cbn [transformChain] in H. unfold transformBin in H. bind H t1. bind H t2. bind H t3.
      apply openLeft_ctx in E. pose proof (one_ctx _ _ _ _ E0) as Ec2. apply openRight_ctx in E1.
      destruct Hx as [->|Hx].
      * eapply (Ha HP1 t1 _ v c cs); [congruence|exact E0|exact Hmx].
      * eapply (IHr HP2 Hx t3); [congruence|exact H].
  - cbn [transformOne] in H. unfold transformLoop in H. bind H q. destruct q as [t1 b]. eapply pick_refs; eauto.
  - cbn [transformOne] in H. unfold transformExists in H. bind H q. destruct q as [t1 b]. eapply pick_refs; eauto.
  - cbn [transformOne] in H. unfold transformNot, transformExists in H. bind H t0. bind H q. destruct q as [t1 b].
    apply openLeft_ctx in E. eapply (pick_refs t0 _ _ _ v c cs); [congruence|exact E0|]. inversion Hm; subst. constructor; eassumption.
  - destruct k; cbn [transformOne] in H; unfold transformComparison in H; try (bind H q; destruct q as [t1 b]; eapply pick_refs; eauto; fail).
    unfold transformNot in H. bind H t0. bind H q. destruct q as [t1 b].
    apply openLeft_ctx in E. eapply (pick_refs t0 _ _ _ v c cs); [congruence|exact E0|].
    inversion Hm; subst; [apply men_l|apply men_r]; eassumption.
Qed.

(** ** All of an expression *)

Definition extends (k : tr -> outcome tr) : Prop := forall t t' L, trIn t L -> k t = Ok t' -> grown t t' L.

Lemma grown_trans : forall t t1 t2 L L1, t_ctx t1 = t_ctx t -> trIn t1 (L ++ L1) -> grown t1 t2 (L ++ L1) -> grown t t2 L.
Proof. intros t t1 t2 L L1 E HI (E2 & L2 & H). split; [congruence|]. exists (L1 ++ L2). now rewrite app_assoc. Qed.

Lemma not_ext : forall k, extends k -> extends (transformNot k).
Proof.
  intros k Hk t t' L HI H. unfold transformNot in H. bind H t1. destruct (openLeft_in _ _ _ _ HI E) as (Ec & A & _).
  destruct (Hk _ _ _ A H) as (Ec2 & L2 & B). split; [congruence|eauto].
Qed.
Lemma bin_ext : forall ty k1 k2, extends k1 -> extends k2 -> extends (transformBin ty k1 k2).
Proof.
  intros ty k1 k2 H1 H2 t t' L HI H. unfold transformBin in H. bind H t1. destruct (openLeft_in _ _ _ _ HI E) as (Ec & A & _).
  bind H t2. destruct (H1 _ _ _ A E0) as (Ec2 & L2 & B). bind H t3. destruct (openRight_in _ _ _ _ B E1) as (Ec3 & C).
  destruct (H2 _ _ _ C H) as (Ec4 & L3 & D). split; [congruence|]. exists (L2 ++ L3). now rewrite app_assoc.
Qed.

(** Paths that are all the same need no after-node. *)
Lemma commonPath_same : forall base pre paths, (forall p, In p paths -> p = pre ++ base) ->
  commonPath (length pre) base paths = Ok base.
Proof.
  induction base as [|b base IH]; intros pre paths H; cbn [commonPath]; auto.
  assert (agreeAt (length pre) b paths = Ok true) as ->.
  { induction paths as [|p r IHr]; cbn [agreeAt]; auto. rewrite (H p) by now left.
    replace (Nat.ltb (length (pre ++ b :: base)) (length pre)) with false by (symmetry; apply Nat.ltb_ge; rewrite app_length; lia).
    rewrite idx_last. cbn [obind]. rewrite bytes_eqb_refl. apply IHr. intros q Hq. apply H. now right. }
  cbn [obind]. specialize (IH (pre ++ [b]) paths). rewrite app_length in IH. cbn [length] in IH. rewrite Nat.add_1_r in IH.
  rewrite IH; auto. intros p Hp. rewrite <- app_assoc. now apply H.
Qed.
Lemma longest_same : forall l p, (forall q, In q l -> q = p) -> longest p l = p.
Proof. induction l as [|q l IH]; intros p H; cbn [longest]; auto. rewrite (H q) by now left. rewrite Nat.ltb_irrefl. apply IH. intros; apply H; now right. Qed.

Lemma loop_ext : forall o m v inE sub k, extends k -> seesOnly k sub ->
  extends (transformLoop o m v inE sub k).
Proof.
  intros o m v inE sub k Hk Hks t t' L HI H. unfold transformLoop in H.
  bind H q. destruct q as [t1 b]. bind H q. destruct q as [t2 tg].
  destruct (pickBaseNode_in _ _ _ _ _ HI E) as (Ec1 & L1 & A1 & Hb).
  destruct (makeDataRef_in _ _ _ _ _ _ _ A1 E0) as (Ec2 & L2 & A2).
  assert (refNode b < length (L ++ L1 ++ L2)) as Hbl.
  { assert (refNode b < length (L ++ L1)) by (apply nth_error_Some; congruence). rewrite app_assoc, app_length. lia. }
  apply nth_ext with (L2 := L2) in Hb. rewrite <- app_assoc in *. set (L12 := L1 ++ L2) in *.
  bind H t3. destruct (openLeft_in _ _ _ _ A2 E1) as (Ec3 & A3 & Eh3 & Ea3).
  bind H t5. bind H t6.
  set (t4 := setHeap t3 (t_heap t3 ++ [emptyExec])) in *.
  assert (trIn t4 ((L ++ L12) ++ [true])) as A4.
  { eapply trIn_ext; eauto. unfold t4. cbn [t_heap setHeap]. apply heapIn_app. apply A3. }
  assert (length (t_heap t3) = length (L ++ L12)) as Hlen by (symmetry; apply A3).
  assert (nth_error ((L ++ L12) ++ [true]) (length (t_heap t3)) = Some true) as Hnew.
  { rewrite nth_error_app2 by lia. now rewrite Hlen, Nat.sub_diag. }
  assert (t_active t4 <> 0) as Hact.
  { unfold t4. cbn. rewrite Ea3. destruct A2 as (_ & HB & _). lia. }
  apply nth_ext with (L2 := [true]) in Hb.
  (* inside a loop the base is never an after-node *)
  assert (forall n, b = RAfter n -> ctxb t = false) as Hafter.
  { intros n ->. destruct (t_ctx t) as [|[w n0] c] eqn:Hc; [unfold ctxb; now rewrite Hc|]. exfalso.
    assert (exists r p, inE = XField r p) as (r & p & ->).
    { assert (forall q, (do (t1, d) <- dataRefIn o inE (RAfter n) t1; Ok (t1, Some d)) = Ok (t2, tg) -> tg = Some (DSlot q) -> exists r p, inE = XField r p) as X.
      { intros q H0 ->. bind H0 qq. destruct qq as [tt d]. injection H0 as <- ->.
        destruct inE; cbn [dataRefIn] in E4; eauto; try (bind E4 cc; discriminate). bind E4 cc. destruct cc. discriminate. }
      cbn [addLoop lp_target] in E2. destruct tg as [[|q| |]|] eqn:Etg; try discriminate.
      destruct inE; eauto; eapply X; eauto. }
    unfold pickBaseNode in E. bind E fs. bind E refs. bind E q. destruct q as [best na]. bind E q. destruct q as [t1' n1].
    destruct na; [|discriminate].
    pose proof (fetch_rec_ok (XLoop m v (XField r p) sub) [] []) as FO. unfold fetchExprFieldRefs in E4. rewrite E4 in FO.
    destruct FO as (_ & FM & _).
    assert (forall f, In f fs -> f = (r, p) \/ fst f = 0) as Hfs.
    { intros f Hf. apply FM in Hf as [[]|Hf]. inversion Hf as [| | | | |? ? ? ? ? ? Hi|? ? ? ? ? ? Hi| | | |]; subst.
      - left. now inversion Hi.
      - assert (fst f = 0 \/ fst f = v) as [?|Hv]; [|now right|].
        + eapply (Hks (pushContext t5 v (length (t_heap t3)))); [reflexivity|exact E3|exact Hi].
        + exfalso. clear - Hi Hv.
          assert (forall e vs f, mentions e vs f -> ~ In (fst f) vs) as X.
          { clear. intros e vs f H. induction H; auto. intro HX. apply IHmentions. now right. }
          apply (X _ _ _ Hi). left. auto. }
    apply resolveRefs_inv in E5. unfold findBestRoot in E6.
    assert (forall q, In q (map snd (filter (fun r0 => optnat_eqb (fst r0) (currentContext t)) refs)) -> q = p) as HP.
    { intros q Hq. apply in_map_iff in Hq as ([cc qq] & <- & Hq). apply filter_In in Hq as [Hq1 Hq2]. cbn [fst snd] in *.
      clear - E5 Hfs Hq1 Hq2 Hc. induction E5 as [|f rr fs' rs Hr HF IH]; [contradiction|]. destruct Hq1 as [->|Hq1].
      - destruct (Hfs f) as [->|Hf0]; [now left|..].
        + unfold resolveRef in Hr. bind Hr cx. now injection Hr as <- <-.
        + exfalso. unfold resolveRef, getContext in Hr. rewrite Hf0 in Hr. cbn in Hr. injection Hr as <- <-.
          unfold currentContext in Hq2. rewrite Hc in Hq2. discriminate.
      - apply IH; auto. intros f' Hf'. apply Hfs. now right. }
    destruct (map snd _) as [|p0 ps].
    - discriminate.
    - assert (p0 = p) as -> by (apply HP; now left). rewrite longest_same in E6 by (intros q Hq; apply HP; now right).
      pose proof (commonPath_same p [] (p :: ps) HP) as CP. cbn [length] in CP. rewrite CP in E6. cbn [obind] in E6. rewrite Nat.ltb_irrefl in E6. discriminate. }
  assert (trIn t5 ((L ++ L12) ++ [true]) /\ t_ctx t5 = t_ctx t4) as [A5 Ec5].
  { assert (forall n x, nth_error (t_heap t4) n = Some x -> n < length (t_heap t4)) as Hlt by (intros; apply nth_error_Some; congruence).
    destruct b as [n|n]; cbn [addLoop lp_target] in E2.
    - destruct tg; [discriminate|]. bind E2 x. apply idx_inv in E4. injection E2 as <-. split; [|reflexivity].
      destruct A4 as (H1 & HB & H2 & H3). split; [|auto]. apply heapIn_upd; auto. intros _.
      destruct H1 as [_ HN]. destruct (HN _ _ E4) as (bb & B0 & B1 & B2 & B3). exists bb. split; auto. split; auto. split; [|auto].
      cbn. apply Forall_app. split; auto. constructor; [|constructor]. split; [|split]; cbn; auto. cbn in Hbl; lia.
    - destruct tg as [[|q| |]|]; try discriminate. bind E2 x. apply idx_inv in E4. destruct (x_after x) as [a|] eqn:Ea; [|discriminate].
      injection E2 as <-. split; [|reflexivity].
      destruct A4 as (H1 & HB & H2 & H3). split; [|auto]. apply heapIn_upd; auto. intros _.
      destruct H1 as [_ HN]. destruct (HN _ _ E4) as (bb & B0 & B1 & B2 & B3). exists bb. split; auto. split; auto. split; [auto|].
      cbn. intros af Eaf. injection Eaf as <-. cbn. destruct (B3 _ Ea) as [C1 C2]. split.
      + apply Forall_app. split; auto. constructor; [|constructor]. split; [|split]; cbn; auto. cbn in Hbl; lia.
      + intro Hbb. exfalso. rewrite (Hafter n eq_refl) in Hb. cbn [refNode] in Hb. subst bb. rewrite B0 in Hb. discriminate. }
  assert (trIn (pushContext t5 v (length (t_heap t3))) ((L ++ L12) ++ [true])) as A5'.
  { destruct A5 as (H1 & HB & H2 & H3). split; [auto|]. split; [auto|]. split; [auto|]. constructor; auto. }
  destruct (Hk _ _ _ A5' E3) as (Ec6 & L6 & A6).
  unfold popContext in H. rewrite Ec6 in H. cbn [pushContext t_ctx setCtx] in H. rewrite Nat.eqb_refl in H. injection H as <-.
  split; [cbn [setCtx t_ctx]; unfold t4 in Ec5; cbn in Ec5; congruence|].
  exists (L12 ++ [true] ++ L6). replace (L ++ L12 ++ [true] ++ L6) with (((L ++ L12) ++ [true]) ++ L6) by (now rewrite <- !app_assoc).
  destruct A6 as (H1 & HB & H2 & H3). split; [|split; [|split]]; cbn [setCtx t_heap t_bucket t_ctx]; auto.
  rewrite Ec6 in H3. inversion H3; auto.
Qed.

Lemma one_ext : forall o e, proper e = true -> extends (transformOne o e).
Proof.
  assert (extends (fun t => Ok t)) as Hnil.
  { intros t t' L HI H. injection H as <-. split; auto. exists []. now rewrite app_nil_r. }
  intros o e. induction e as [| |g|sa|sa|sa|a IH|l IH|l IH|r p|n l IH|m v i s IHi IHs|a IH|a IH|k l r IHl IHr] using expr_ind';
    intro HP; cbn [proper] in HP; try discriminate; try exact Hnil.
  - apply not_ext; auto.
  - intros t t' L HI H. rewrite transformOne_and in H. revert t t' L HI H.
    induction IH as [|a r Ha HF IHr]; intros t t' L HI H; [discriminate|]. cbn [forallb] in HP. apply andb_true_iff in HP as [HP1 HP2].
    destruct r as [|b r]; [now apply Ha|]. revert t t' L HI H. apply (bin_ext NAnd); [now apply Ha|]. exact (IHr HP2).
  - intros t t' L HI H. rewrite transformOne_or in H. revert t t' L HI H.
    induction IH as [|a r Ha HF IHr]; intros t t' L HI H; [discriminate|]. cbn [forallb] in HP. apply andb_true_iff in HP as [HP1 HP2].
    destruct r as [|b r]; [now apply Ha|]. revert t t' L HI H. apply (bin_ext NOr); [now apply Ha|]. exact (IHr HP2).
  - apply loop_ext; auto. now apply one_sees.
  - intros t t' L. apply exists_in.
  - apply not_ext. intros t t' L. apply exists_in.
  - destruct k; try (intros t t' L; apply cmp_in). apply not_ext. intros t t' L. apply cmp_in.
Qed.

Lemma merge_ext : forall o es t t' ids L, forallb proper es = true -> trIn t L -> transformMerge o es t = Ok (t', ids) -> grown t t' L.
Proof.
  induction es as [|e es IH]; intros t t' ids L HP HI H; [discriminate|]. cbn [forallb] in HP. apply andb_true_iff in HP as [HP1 HP2].
  destruct es as [|e2 es].
  - cbn [transformMerge] in H. bind H t1. injection H as <- _. eapply one_ext; eauto.
  - cbn [transformMerge] in H. fold (transformMerge o (e2 :: es)) in H.
    bind H t1. destruct (openLeft_in _ _ _ _ HI E) as (Ec & A & _).
    bind H t2. destruct (one_ext o e HP1 _ _ _ A E0) as (Ec2 & L2 & B). bind H t3. destruct (openRight_in _ _ _ _ B E1) as (Ec3 & C).
    bind H q. destruct q as [t4 ids4]. injection H as <- _.
    destruct (IH _ _ _ _ HP2 C E2) as (Ec4 & L3 & D). split; [congruence|]. exists (L2 ++ L3). now rewrite app_assoc.
Qed.

Lemma heapIn_ok : forall H L, heapIn H L -> heapOk H (fun n => nth n L false).
Proof.
  intros H L [HL HN] n x E. destruct (HN _ _ E) as (b & B0 & B1 & B2 & B3).
  assert (forall m c, nth_error L m = Some c -> nth m L false = c) as Hn by (intros; now apply nth_error_nth).
  assert (forall l, loopIn L n l -> n < lp_node l /\ nth (lp_node l) L false = true /\ lp_bucket l <> 0) as Hl.
  { intros l (C1 & C2 & C3). rewrite (Hn _ _ C2). auto. }
  split; [|split].
  - eapply Forall_impl; [|exact B1]. intros kc [C1 C2]. split; auto. now rewrite (Hn _ _ C2), (Hn _ _ B0).
  - eapply Forall_impl; [|exact B2]. exact Hl.
  - intros af Ea. destruct (B3 _ Ea) as [C1 C2]. split; [eapply Forall_impl; [|exact C1]; exact Hl|].
    rewrite (Hn _ _ B0). exact C2.
Qed.

Lemma proper_gen : forall es, forallb proper es = true -> forallb proper (genExprs es) = true.
Proof.
  induction es as [|e es IH]; cbn; auto. intro H. apply andb_true_iff in H as [H1 H2].
  destruct (isConst e); auto. cbn. rewrite H1. auto.
Qed.

Theorem transform_heapOk : forall o es D, forallb proper es = true -> transform o es = Ok D ->
  exists inner, forall h, d_heap D = Some h -> heapOk h inner.
Proof.
  intros o es D HP H. apply proper_gen in HP. unfold transform in H. destruct (genExprs es) as [|g gs] eqn:Eg.
  - injection H as <-. exists (fun _ => false). discriminate.
  - bind H q. destruct q as [t ids]. destruct (validate (t_tree t)); try discriminate.
    destruct (Nat.eqb (length (t_tree t)) (t_bucket t)); [|discriminate]. injection H as <-.
    assert (trIn tr0 [false]) as H0.
    { split; [|split; [|split]]; cbn; auto. split; auto. intros n x E0. destruct n as [|[|n]]; try discriminate.
      injection E0 as <-. exists false. cbn. repeat split; auto; discriminate. }
    destruct (merge_ext _ _ _ _ _ _ HP H0 E) as (_ & L2 & A). exists (fun n => nth n ([false] ++ L2) false).
    intros h Eh. injection Eh as <-. apply heapIn_ok. apply A.
Qed.
