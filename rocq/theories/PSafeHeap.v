(** The program of every compiled filter is safe to run. *)
From Verif Require Import Base MTokenizer MLit MFastVal SEvents SFormula SMerge MBinTree MExpr SExpr MTransform SCompile SProper SSat SSafe
  MMatcher PBinTree PMerge PExpr PFun PCompile PTrace PTerm PTermHeap PSafe.
From Coq Require Import List NArith ZArith Arith Lia Bool.
Import ListNotations.
Open Scope nat_scope.

Lemma nthx : forall A (L L2 : list A) n b, nth_error L n = Some b -> nth_error (L ++ L2) n = Some b.
Proof. exact PTermHeap.nth_ext. Qed.

(** ** Ancestors, by the parent links only *)
Definition pars (T : list node) : list nat := map n_parent T.
Inductive pc (ps : list nat) (c : nat) : nat -> Prop :=
| pc_refl : c < length ps -> pc ps c c
| pc_up : forall b p, nth_error ps b = Some p -> 0 < b -> pc ps c p -> pc ps c b.
Lemma pc_app : forall ps q c b, pc ps c b -> pc (ps ++ q) c b.
Proof.
  intros ps q c b H. induction H as [Hc|b p Hp Hb H IH].
  - apply pc_refl. rewrite app_length. lia.
  - eapply pc_up; eauto. rewrite nth_error_app1; auto. apply nth_error_Some. congruence.
Qed.
Lemma pc_anc : forall T c b, pc (pars T) c b -> anc T c b.
Proof.
  intros T c b H. induction H as [Hc|b p Hp Hb H IH].
  - apply anc_refl. unfold pars in Hc. now rewrite map_length in Hc.
  - unfold pars in Hp. rewrite nth_error_map in Hp. destruct (nth_error T b) as [n|] eqn:E; [|discriminate]. injection Hp as <-.
    eapply anc_up; eauto.
Qed.
Lemma pc_lt : forall ps c b, pc ps c b -> b < length ps.
Proof. intros ps c b H. destruct H; auto. apply nth_error_Some. congruence. Qed.
Lemma pars_upd : forall T i n m, nth_error T i = Some n -> n_parent m = n_parent n -> pars (upd T i m) = pars T.
Proof.
  unfold pars. induction T as [|x T IH]; intros [|i] n m H E; cbn in *; try discriminate; auto.
  - injection H as ->. now rewrite E.
  - f_equal. eauto.
Qed.

(** ** Operands that can be evaluated *)
Fixpoint dgood (onNode : bool) (ns : nat) (d : dref) : Prop :=
  match d with
  | DActive => onNode = true
  | DSlot s => 1 <= s <= ns
  | DVal _ => True
  | DFunc n ps => ((In n unaryFuns /\ 1 <= length ps) \/ (In n binaryFuns /\ 2 <= length ps))
      /\ (fix go l := match l with [] => True | x :: r => dgood onNode ns x /\ go r end) ps
  end.
Lemma dgood_func : forall b ns n ps, dgood b ns (DFunc n ps) <->
  ((In n unaryFuns /\ 1 <= length ps) \/ (In n binaryFuns /\ 2 <= length ps)) /\ Forall (dgood b ns) ps.
Proof.
  intros b ns n ps. cbn [dgood]. assert (forall l, (fix go l := match l with [] => True | x :: r => dgood b ns x /\ go r end) l <-> Forall (dgood b ns) l) as X.
  { induction l as [|x l IH]; split; intro H; auto; [destruct H; constructor; tauto|inversion H; tauto]. }
  now rewrite X.
Qed.
Definition odgood (onNode : bool) (ns : nat) (d : option dref) : Prop := match d with Some x => dgood onNode ns x | None => True end.
Lemma dgood_mono : forall b ns ns' d, ns <= ns' -> dgood b ns d -> dgood b ns' d.
Proof.
  intros b ns ns' d Hn. induction d as [|s|n ps IH|v] using dref_ind'; intro H; auto.
  - cbn in *. lia.
  - apply dgood_func in H as [H1 H2]. apply dgood_func. split; auto. rewrite Forall_forall in *. auto.
Qed.
Lemma odgood_mono : forall b ns ns' d, ns <= ns' -> odgood b ns d -> odgood b ns' d.
Proof. intros b ns ns' [d|]; cbn; auto. apply dgood_mono. Qed.
Lemma dgood_total : forall o b ns sv lit d, (b = true -> lit <> None) -> dgood b ns d ->
  (forall s, In s (drefSlots d) -> exists v, sv s = Ok v) -> exists x, resolveParam o sv d lit = Ok x.
Proof.
  intros o b ns sv lit d Hl. induction d as [|s|n ps IH|v] using dref_ind'; intros H HS; cbn [resolveParam].
  - cbn in H. destruct lit; eauto. exfalso. now apply Hl.
  - apply HS. now left.
  - apply dgood_func in H as [H1 H2]. rewrite Forall_forall in IH, H2.
    assert (forall x, In x ps -> exists y, resolveParam o sv x lit = Ok y) as X.
    { intros x Hx. apply IH; auto. intros s Hs. apply HS. cbn. apply in_flat_map. eauto. }
    destruct H1 as [[HN Hlen]|[HN Hlen]].
    + destruct (unary_total n HN) as (f & -> & Hf). destruct ps as [|x ps]; [cbn in Hlen; lia|].
      destruct (X x) as [z ->]; [now left|]. cbn [obind]. apply Hf.
    + destruct (binary_total n HN) as (f & -> & Hf). destruct ps as [|x [|y ps]]; try (cbn in Hlen; lia).
      destruct (X x) as [z ->]; [now left|]. cbn [obind]. destruct (X y) as [z2 ->]; [right; now left|]. cbn [obind]. apply Hf.
  - eauto.
Qed.
Lemma dgood_slots : forall b ns d s, dgood b ns d -> In s (drefSlots d) -> 1 <= s <= ns.
Proof.
  intros b ns d. induction d as [|x|n ps IH|v] using dref_ind'; intros s H Hs; cbn in Hs; try contradiction.
  - destruct Hs as [<-|[]]. exact H.
  - apply dgood_func in H as [_ H]. apply in_flat_map in Hs as (d & Hd & Hs). rewrite Forall_forall in *. eauto.
Qed.
Lemma op_safe : forall o b ns op, odgood b ns (op_lhs op) -> odgood b ns (op_rhs op) -> opSafe o b op /\ slotsIn ns op.
Proof.
  intros o b ns [k ty l r] Hl Hr. cbn in Hl, Hr. split.
  - intros sv lit Hlit HS. unfold opResult, opSlots in *. cbn [op_lhs op_rhs op_op] in *.
    assert (forall d, odgood b ns d -> (forall s, In s (odrefSlots d) -> exists v, sv s = Ok v) -> exists x m, operand o sv d lit = Ok (x, m)) as X.
    { intros [d|] Hd Hs; cbn [operand]; eauto. destruct (dgood_total o b ns sv lit d) as [x ->]; auto.
      - intros ->. exact Hlit.
      - cbn. eauto. }
    destruct (X l Hl) as (x & m1 & ->); [intros; apply HS, in_app_iff; auto|].
    destruct (X r Hr) as (y & m2 & ->); [intros; apply HS, in_app_iff; auto|].
    cbn [obind]. destruct (m1 || m2); eauto. destruct (applyOp o ty x y). eauto.
  - intros s Hs. unfold opSlots in Hs. cbn [op_lhs op_rhs] in Hs. apply in_app_iff in Hs as [Hs|Hs].
    + destruct l; [|destruct Hs]. eapply dgood_slots; [exact Hl|exact Hs].
    + destruct r; [|destruct Hs]. eapply dgood_slots; [exact Hr|exact Hs].
Qed.

(** ** Programs: [L] gives the loop bucket (or 0) every node belongs to *)
Definition loopS (ps L : list nat) (c : nat) (l : loopnode) : Prop :=
  nth_error L (lp_node l) = Some (lp_bucket l) /\ pc ps c (lp_bucket l) /\ lp_bucket l <> c.
Definition opS (ps : list nat) (b : bool) (ns c : nat) (op : opnode) : Prop :=
  pc ps c (op_bucket op) /\ odgood b ns (op_lhs op) /\ odgood b ns (op_rhs op).
Record nodeS (ps : list nat) (ns : nat) (L : list nat) (c : nat) (x : execnode) : Prop := {
  ns_elems : Forall (fun kc => nth_error L (snd kc) = Some c) (x_elems x);
  ns_store : x_store x <= ns;
  ns_ops : Forall (opS ps true ns c) (x_ops x);
  ns_loops : Forall (fun l => lp_target l = None /\ loopS ps L c l) (x_loops x);
  ns_after : forall af, x_after x = Some af -> Forall (opS ps false ns c) (af_ops af)
    /\ Forall (fun l => (exists s, lp_target l = Some (DSlot s) /\ 1 <= s <= ns) /\ loopS ps L c l) (af_loops af)
}.
Definition heapS (ps : list nat) (ns : nat) (H : list execnode) (L : list nat) : Prop :=
  length L = length H /\ forall n x, nth_error H n = Some x -> exists c, nth_error L n = Some c /\ nodeS ps ns L c x.

Lemma loopS_ext : forall ps q L L2 c l, loopS ps L c l -> loopS (ps ++ q) (L ++ L2) c l.
Proof. intros ps q L L2 c l (H1 & H2 & H3). split; [now apply nthx|]. split; auto. now apply pc_app. Qed.
Lemma opS_ext : forall ps q b ns ns' c op, ns <= ns' -> opS ps b ns c op -> opS (ps ++ q) b ns' c op.
Proof. intros ps q b ns ns' c op Hn (H1 & H2 & H3). split; [now apply pc_app|]. split; eapply odgood_mono; eauto. Qed.
Lemma nodeS_ext : forall ps q ns ns' L L2 c x, ns <= ns' -> nodeS ps ns L c x -> nodeS (ps ++ q) ns' (L ++ L2) c x.
Proof.
  intros ps q ns ns' L L2 c x Hn [H1 H2 H3 H4 H5]. constructor.
  - eapply Forall_impl; [|exact H1]. intros kc. apply nthx.
  - lia.
  - eapply Forall_impl; [|exact H3]. intros op. now apply opS_ext.
  - eapply Forall_impl; [|exact H4]. intros l [A B]. split; auto. now apply loopS_ext.
  - intros af E. destruct (H5 af E) as [A B]. split.
    + eapply Forall_impl; [|exact A]. intros op. now apply opS_ext.
    + eapply Forall_impl; [|exact B]. intros l [(s & C & D) F]. split; [exists s; split; [auto|lia]|]. now apply loopS_ext.
Qed.
Lemma heapS_ext : forall ps q ns ns' H L, ns <= ns' -> heapS ps ns H L -> heapS (ps ++ q) ns' H L.
Proof.
  intros ps q ns ns' H L Hn [HL HN]. split; auto. intros n x E. destruct (HN _ _ E) as (c & Ec & X). exists c. split; auto.
  rewrite <- (app_nil_r L). now apply nodeS_ext with (ns := ns).
Qed.
Lemma heapS_upd : forall ps ns H L n x x', heapS ps ns H L -> nth_error H n = Some x ->
  (forall c, nth_error L n = Some c -> nodeS ps ns L c x -> nodeS ps ns L c x') -> heapS ps ns (upd H n x') L.
Proof.
  intros ps ns H L n x x' [HL HN] En Hx. split; [now rewrite upd_length|]. intros m y E.
  destruct (Nat.eq_dec m n) as [->|Hne].
  - rewrite nth_error_upd_same in E by (apply nth_error_Some; congruence). injection E as <-.
    destruct (HN _ _ En) as (c & Ec & X). exists c. auto.
  - rewrite nth_error_upd_other in E by auto. auto.
Qed.
Lemma nodeS_empty : forall ps ns L c, nodeS ps ns L c emptyExec.
Proof. intros. constructor; cbn; auto; try lia. discriminate. Qed.
Lemma heapS_app : forall ps ns H L c, heapS ps ns H L -> heapS ps ns (H ++ [emptyExec]) (L ++ [c]).
Proof.
  intros ps ns H L c [HL HN]. split; [rewrite !app_length; cbn; lia|]. intros n x E.
  destruct (Nat.lt_ge_cases n (length H)) as [Hn|Hn].
  - rewrite nth_error_app1 in E by auto. destruct (HN _ _ E) as (d & Ed & X). exists d. split; [now apply nthx|].
    rewrite <- (app_nil_r ps). now apply nodeS_ext with (ns := ns).
  - rewrite nth_error_app2 in E by auto. destruct (n - length H) as [|k] eqn:Ek.
    + injection E as <-. exists c. rewrite nth_error_app2 by lia. rewrite HL, Ek. split; auto. apply nodeS_empty.
    + destruct k; discriminate.
Qed.

Lemma walk_safe : forall ps ns path h n h' n' L c, heapS ps ns h L -> nth_error L n = Some c -> walk h n path = Ok (h', n') ->
  exists L2, heapS ps ns h' (L ++ L2) /\ nth_error (L ++ L2) n' = Some c.
Proof.
  intros ps ns. induction path as [|k path IH]; intros h n h' n' L c HL Hn H; cbn [walk] in H.
  - injection H as <- <-. exists []. rewrite app_nil_r. auto.
  - bind H x. apply idx_inv in E. destruct (proj2 HL _ _ E) as (c' & E0 & E1). assert (c' = c) by congruence. subst c'.
    destruct (lookup k (x_elems x)) as [m|] eqn:El.
    + apply lookup_in in El. pose proof (ns_elems _ _ _ _ _ E1) as E2. rewrite Forall_forall in E2. specialize (E2 _ El). eapply IH; eauto.
    + assert (n < length h) as Hlt by (apply nth_error_Some; congruence). pose proof (proj1 HL) as HLn.
      edestruct (IH (upd h n (setElems x (x_elems x ++ [(k, length h)])) ++ [emptyExec]) (length h) h' n' (L ++ [c]) c) as (L2 & A1 & A2); auto.
      * replace (upd h n (setElems x (x_elems x ++ [(k, length h)])) ++ [emptyExec])
          with (upd (h ++ [emptyExec]) n (setElems x (x_elems x ++ [(k, length h)]))).
        2: { clear - Hlt. generalize (setElems x (x_elems x ++ [(k, length h)])) as y0. intro y0. revert n Hlt. induction h as [|y h IHh]; intros n Hlt; cbn in *; [lia|].
             destruct n; cbn; auto. f_equal. apply IHh. lia. }
        eapply heapS_upd; [now apply heapS_app|rewrite nth_error_app1; eauto|]. intros d Hd [X1 X2 X3 X4 X5].
        constructor; cbn [setElems x_elems x_ops x_store x_loops x_after]; auto. apply Forall_app. split; auto.
        constructor; [|constructor]. cbn [snd]. rewrite nth_error_app2 by lia. rewrite HLn, Nat.sub_diag.
        apply nthx with (L2 := [c]) in Hn. cbn. congruence.
      * rewrite nth_error_app2 by lia. now rewrite HLn, Nat.sub_diag.
      * exists ([c] ++ L2). rewrite app_assoc. auto.
Qed.

(** ** The transformer *)
Record trS (t : tr) (L : list nat) : Prop := {
  tr_heap : heapS (pars (t_tree t)) (t_slot t) (t_heap t) L;
  tr_bucket : t_bucket t = length (t_tree t);
  tr_root : nth_error L 0 = Some 0;
  tr_ctx : Forall (fun vn => exists c, nth_error L (snd vn) = Some c) (t_ctx t)
}.
(** The bucket of the innermost open loop. *)
Definition curNode (t : tr) : nat := match currentContext t with Some c => c | None => 0 end.
(** A step that leaves the tree alone and adds nodes with labels [L2]. *)
Record quiet (t t' : tr) (L L2 : list nat) : Prop := {
  q_ctx : t_ctx t' = t_ctx t;
  q_tree : t_tree t' = t_tree t;
  q_active : t_active t' = t_active t;
  q_bucket : t_bucket t' = t_bucket t;
  q_slot : t_slot t <= t_slot t';
  q_in : trS t' (L ++ L2)
}.
Lemma quiet_refl : forall t L, trS t L -> quiet t t L [].
Proof. intros t L H. constructor; auto. now rewrite app_nil_r. Qed.
Lemma quiet_trans : forall t t1 t2 L L1 L2, quiet t t1 L L1 -> quiet t1 t2 (L ++ L1) L2 -> quiet t t2 L (L1 ++ L2).
Proof.
  intros t t1 t2 L L1 L2 [A1 A2 A3 A4 A5 A6] [B1 B2 B3 B4 B5 B6].
  constructor; try congruence; [lia|]. now rewrite app_assoc.
Qed.

Lemma trS_ext : forall t t' L L2, trS t L -> t_ctx t' = t_ctx t -> t_bucket t' = length (t_tree t') ->
  heapS (pars (t_tree t')) (t_slot t') (t_heap t') (L ++ L2) -> trS t' (L ++ L2).
Proof.
  intros t t' L L2 [H1 HB H2 H3] Ec Eb Hh. constructor; auto.
  - now apply nthx.
  - rewrite Ec. eapply Forall_impl; [|exact H3]. intros vn [c Hc]. exists c. now apply nthx.
Qed.
(** Replacing one node. *)
Lemma trS_upd : forall t n x x' L, trS t L -> nth_error (t_heap t) n = Some x ->
  (forall c, nth_error L n = Some c -> nodeS (pars (t_tree t)) (t_slot t) L c x -> nodeS (pars (t_tree t)) (t_slot t) L c x') ->
  trS (setHeap t (upd (t_heap t) n x')) L.
Proof. intros t n x x' L [H1 H2 H3 H4] E Hx. constructor; cbn; auto. eapply heapS_upd; eauto. Qed.

Lemma getExec_safe : forall t r t' n L c, trS t L ->
  nth_error L (match fst r with Some c => c | None => 0 end) = Some c -> getExecNode t r = Ok (t', n) ->
  exists L2, quiet t t' L L2 /\ nth_error (L ++ L2) n = Some c.
Proof.
  intros t r t' n L c HI Hb H. unfold getExecNode in H. bind H q. destruct q as [h n']. injection H as <- <-.
  destruct (walk_safe _ _ _ _ _ _ _ _ _ (tr_heap _ _ HI) Hb E) as (L2 & A1 & A2). exists L2. split; auto.
  constructor; auto. eapply trS_ext; eauto. apply HI.
Qed.
Lemma resolve_safe : forall t f r L, trS t L -> resolveRef t f = Ok r ->
  exists c, nth_error L (match fst r with Some c => c | None => 0 end) = Some c.
Proof.
  intros t f r L [H1 HB H2 H3] H. unfold resolveRef, getContext in H. destruct (Nat.eqb (fst f) 0).
  - cbn [obind] in H. injection H as <-. cbn. eauto.
  - destruct (t_ctx t) as [|[w n] rest]; [discriminate|]. destruct (Nat.eqb w (fst f)); [|discriminate].
    cbn [obind] in H. injection H as <-. cbn. inversion H3; auto.
Qed.
Lemma store_safe : forall t n t' s L, trS t L -> storeExecNode t n = Ok (t', s) -> quiet t t' L [] /\ 1 <= s <= t_slot t'.
Proof.
  intros t n t' s L HI H. unfold storeExecNode in H. bind H x. apply idx_inv in E.
  destruct (Nat.eqb (x_store x) 0) eqn:E0; injection H as <- <-.
  - split; [|cbn; lia]. constructor; cbn; auto. rewrite app_nil_r.
    destruct HI as [H1 HB H2 H3]. constructor; cbn; auto.
    eapply heapS_upd; [|eauto|].
    + rewrite <- (app_nil_r (pars _)). eapply heapS_ext; [|exact H1]. lia.
    + intros c _ [X1 X2 X3 X4 X5]. constructor; cbn; auto.
  - split; [now apply quiet_refl|]. apply Nat.eqb_neq in E0.
    destruct (proj2 (tr_heap _ _ HI) _ _ E) as (c & _ & X). pose proof (ns_store _ _ _ _ _ X). lia.
Qed.
Lemma field_safe : forall t f r t1 n L, trS t L -> resolveRef t f = Ok r -> getExecNode t r = Ok (t1, n) ->
  exists L2, quiet t t1 L L2 /\ forall t2 s, storeExecNode t1 n = Ok (t2, s) -> quiet t t2 L L2 /\ 1 <= s <= t_slot t2.
Proof.
  intros t f r t1 n L HI Hr Hg. destruct (resolve_safe _ _ _ _ HI Hr) as (c & Hc).
  destruct (getExec_safe _ _ _ _ _ _ HI Hc Hg) as (L2 & A & _). exists L2. split; auto.
  intros t2 s Hs. destruct (store_safe _ _ _ _ _ (q_in _ _ _ _ A) Hs) as (B & B7). split; auto.
  rewrite <- (app_nil_r L2). eapply quiet_trans; eauto.
Qed.

Definition onNode (b : nref) : bool := match b with RNode _ => true | RAfter _ => false end.
Lemma dataRef_safe : forall o e b t t' d L, trS t L -> funsOk e -> dataRefIn o e b t = Ok (t', d) ->
  exists L2, quiet t t' L L2 /\ dgood (onNode b) (t_slot t') d.
Proof.
  intros o e. induction e as [| |g|sa|sa|sa|a IH|l IH|l IH|r p|n l IH|m v i s IHi IHs|a IH|a IH|k l r IHl IHr] using expr_ind';
    intros b t t' d L HI HF H;
    try (cbn [dataRefIn] in H; bind H c; injection H as <- <-; exists []; split; [now apply quiet_refl|exact I]).
  - cbn [dataRefIn] in H. bind H rr. bind H q. destruct q as [t1 n].
    destruct (field_safe _ _ _ _ _ _ HI E E0) as (L2 & A & B). exists L2.
    destruct (isBase b n) eqn:Eb.
    + injection H as <- <-. split; auto. destruct b; [reflexivity|discriminate].
    + bind H q. destruct q as [t2 s]. injection H as <- <-. now apply B.
  - rewrite dataRefIn_func in H. bind H q. destruct q as [t1 ps]. injection H as <- <-. apply funsOk_func in HF as [HN HF].
    assert (exists L2, quiet t t1 L L2 /\ Forall (dgood (onNode b) (t_slot t1)) ps /\ length ps = length l) as (L2 & A & B & C).
    { clear HN. revert t t1 ps L HI E. induction IH as [|x r Hx Hr IHr]; intros t t' ps L HI E; cbn [dataRefList] in E.
      - injection E as <- <-. exists []. split; [now apply quiet_refl|]. split; [constructor|reflexivity].
      - destruct HF as [HF1 HF2].
        bind E q. destruct q as [t1 p]. bind E q. destruct q as [t2 ps']. injection E as <- <-.
        destruct (Hx _ _ _ _ _ HI HF1 E0) as (L1 & Q1 & D1).
        destruct (IHr HF2 _ _ _ _ (q_in _ _ _ _ Q1) E1) as (L2 & Q2 & D2 & Hlen). exists (L1 ++ L2). split; [|split].
        + eapply quiet_trans; eauto.
        + constructor; auto. eapply dgood_mono; [|exact D1]. apply Q2.
        + cbn. congruence. }
    exists L2. split; auto. apply dgood_func. split; auto. rewrite C. exact HN.
Qed.
Lemma makeRef_safe : forall o e b t t' d L, trS t L -> funsOk e -> makeDataRef o e b t = Ok (t', d) ->
  exists L2, quiet t t' L L2 /\ odgood (onNode b) (t_slot t') d.
Proof.
  intros o e b t t' d L HI HF H.
  assert (forall t' d, (do (t1, d) <- dataRefIn o e b t; Ok (t1, Some d)) = Ok (t', d) -> exists L2, quiet t t' L L2 /\ odgood (onNode b) (t_slot t') d) as X.
  { clear - HI HF. intros t' d H. bind H q. destruct q. injection H as <- <-. eapply dataRef_safe; eauto. }
  destruct e; try (eapply X; eauto; fail).
  cbn [makeDataRef] in H. bind H rr. bind H q. destruct q as [t1 n].
  destruct (field_safe _ _ _ _ _ _ HI E E0) as (L2 & A & B). exists L2.
  destruct (isBase b n) eqn:Eb.
  - injection H as <- <-. split; auto.
  - bind H q. destruct q as [t2 s]. injection H as <- <-. now apply B.
Qed.

(** The base node belongs to the innermost open loop. *)
Lemma pick_safe : forall t e t' b L c, trS t L -> nth_error L (curNode t) = Some c -> pickBaseNode t e = Ok (t', b) ->
  exists L2, quiet t t' L L2 /\ nth_error (L ++ L2) (refNode b) = Some c.
Proof.
  intros t e t' b L c HI Hc H. unfold pickBaseNode in H. bind H fs. bind H refs. bind H q. destruct q as [best na].
  bind H q. destruct q as [t1 n]. apply findBest_cur in E1.
  destruct (getExec_safe t best t1 n L c HI) as (L2 & A & A7); auto.
  { rewrite E1. exact Hc. }
  exists L2. destruct na.
  - bind H t2. injection H as <- <-. unfold getAfterNode in E3. bind E3 x. apply idx_inv in E4.
    destruct (x_after x) eqn:Ea; injection E3 as <-; split; auto.
    destruct A as [A1 A2 A3 A4 A5 A6]. constructor; auto.
    eapply trS_upd; eauto. intros d _ [X1 X2 X3 X4 X5]. constructor; cbn; auto.
    intros af Eaf. injection Eaf as <-. cbn. auto.
  - injection H as <- <-. auto.
Qed.

Lemma addOp_safe : forall t b op t' L c, trS t L -> nth_error L (refNode b) = Some c ->
  opS (pars (t_tree t)) (onNode b) (t_slot t) c op -> addOp t b op = Ok t' -> quiet t t' L [].
Proof.
  intros t b op t' L c HI Hc Hop H.
  assert (forall h, trS (setHeap t h) L -> quiet t (setHeap t h) L []) as Q.
  { intros h Hh. constructor; cbn; auto. now rewrite app_nil_r. }
  destruct b as [n|n]; cbn [addOp refNode onNode] in *; bind H x; apply idx_inv in E.
  - injection H as <-. apply Q. eapply trS_upd; eauto. intros d Hd [X1 X2 X3 X4 X5]. constructor; cbn; auto.
    apply Forall_app. split; auto. constructor; [|constructor]. congruence.
  - destruct (x_after x) as [a|] eqn:Ea; [|discriminate]. injection H as <-. apply Q. eapply trS_upd; eauto.
    intros d Hd [X1 X2 X3 X4 X5]. constructor; cbn; auto. intros af Eaf. injection Eaf as <-. cbn. destruct (X5 _ Ea) as [Y1 Y2]. split; auto.
    apply Forall_app. split; auto. constructor; [|constructor]. congruence.
Qed.

(** ** All of an expression *)
Record grownS (t t' : tr) (L : list nat) : Prop := {
  g_ctx : t_ctx t' = t_ctx t;
  g_pars : exists q, pars (t_tree t') = pars (t_tree t) ++ q;
  g_in : exists L2, trS t' (L ++ L2)
}.
Lemma quiet_grown : forall t t' L L2, quiet t t' L L2 -> grownS t t' L.
Proof. intros t t' L L2 [A1 A2 A3 A4 A5 A6]. constructor; eauto. exists []. now rewrite A2, app_nil_r. Qed.
Lemma grownS_trans : forall t t1 t2 L L1, grownS t t1 L -> trS t1 (L ++ L1) -> grownS t1 t2 (L ++ L1) -> grownS t t2 L.
Proof.
  intros t t1 t2 L L1 [A1 [q A2] _] A3 [B1 [q2 B2] [L2 B3]]. constructor.
  - congruence.
  - exists (q ++ q2). now rewrite app_assoc, <- A2.
  - exists (L1 ++ L2). now rewrite app_assoc.
Qed.
Lemma grownS_here : forall t t1 t2 L, grownS t t1 L -> trS t1 L -> grownS t1 t2 L -> grownS t t2 L.
Proof. intros t t1 t2 L G1 H G2. rewrite <- (app_nil_r L) in H, G2. eapply grownS_trans; eauto. Qed.
(** Compilation continues below a bucket of the innermost open loop. *)
Definition ready (t : tr) (L : list nat) (c : nat) : Prop :=
  trS t L /\ nth_error L (curNode t) = Some c /\ pc (pars (t_tree t)) c (t_active t).
Definition safeStep (k : tr -> outcome tr) : Prop := forall t t' L c, ready t L c -> k t = Ok t' -> grownS t t' L.

Lemma curNode_ctx : forall t t', t_ctx t' = t_ctx t -> curNode t' = curNode t.
Proof. intros t t' E. unfold curNode, currentContext. now rewrite E. Qed.

Lemma exists_safe : forall o a, funsOk a -> safeStep (transformExists o a).
Proof.
  intros o a HF t t' L c (HI & Hc & Ha) H. unfold transformExists in H. bind H q. destruct q as [t1 b]. bind H q. destruct q as [t2 d].
  destruct (pick_safe _ _ _ _ _ _ HI Hc E) as (L1 & Q0 & A7).
  destruct (makeRef_safe _ _ _ _ _ _ _ (q_in _ _ _ _ Q0) HF E0) as (L2 & Q1 & D1).
  pose proof (quiet_trans _ _ _ _ _ _ Q0 Q1) as Q. apply nthx with (L2 := L2) in A7. rewrite <- app_assoc in A7.
  eapply quiet_grown. eapply quiet_trans; [exact Q|]. eapply addOp_safe; eauto; [apply Q|].
  split; [|split]; cbn; auto. now rewrite (q_tree _ _ _ _ Q), (q_active _ _ _ _ Q).
Qed.
Lemma cmp_safe : forall o e op l r, funsOk l -> funsOk r -> safeStep (transformComparison o e op l r).
Proof.
  intros o e op l r HF HF2 t t' L c (HI & Hc & Ha) H. unfold transformComparison in H. bind H q. destruct q as [t1 b].
  bind H q. destruct q as [t2 dl]. bind H q. destruct q as [t3 dr].
  destruct (pick_safe _ _ _ _ _ _ HI Hc E) as (L1 & Q0 & A7).
  destruct (makeRef_safe _ _ _ _ _ _ _ (q_in _ _ _ _ Q0) HF E0) as (L2 & Q1 & D1).
  destruct (makeRef_safe _ _ _ _ _ _ _ (q_in _ _ _ _ Q1) HF2 E1) as (L3 & Q2 & D2).
  pose proof (quiet_trans _ _ _ _ _ _ Q0 (quiet_trans _ _ _ _ _ _ Q1 Q2)) as Q. apply nthx with (L2 := L2 ++ L3) in A7. rewrite <- app_assoc in A7.
  eapply quiet_grown. eapply quiet_trans; [exact Q|]. eapply addOp_safe; eauto; [apply Q|].
  split; [|split]; cbn; auto.
  - now rewrite (q_tree _ _ _ _ Q), (q_active _ _ _ _ Q).
  - eapply odgood_mono; [|exact D1]. apply Q2.
Qed.

Lemma pars_app : forall T n, pars (T ++ [n]) = pars T ++ [n_parent n].
Proof. intros. unfold pars. now rewrite map_app. Qed.
Lemma set_pars : forall (f : node -> node) T i T', (forall n, n_parent (f n) = n_parent n) ->
  (do n <- idx T i; Ok (upd T i (f n))) = Ok T' -> pars T' = pars T /\ length T' = length T.
Proof.
  intros f T i T' Hf H. bind H n. injection H as <-. apply idx_inv in E. split; [|apply upd_length].
  eapply pars_upd; eauto.
Qed.
Lemma trS_tree : forall t t' L q, trS t L -> t_heap t' = t_heap t -> t_slot t' = t_slot t -> t_ctx t' = t_ctx t ->
  t_bucket t' = length (t_tree t') -> pars (t_tree t') = pars (t_tree t) ++ q -> trS t' L.
Proof.
  intros t t' L q [H1 H2 H3 H4] E1 E2 E3 E4 E5. constructor; auto.
  - rewrite E1, E2, E5. eapply heapS_ext; eauto.
  - now rewrite E3.
Qed.
(** A new bucket below [base]. *)
Lemma bucket_grown : forall t t' L c base q, trS t L -> nth_error L (curNode t) = Some c -> pc (pars (t_tree t)) c base ->
  t_heap t' = t_heap t -> t_slot t' = t_slot t -> t_ctx t' = t_ctx t -> t_bucket t' = length (t_tree t') ->
  pars (t_tree t') = pars (t_tree t) ++ [base] ++ q -> t_active t' = length (t_tree t) ->
  ready t' L c /\ grownS t t' L /\ 0 < t_active t'.
Proof.
  intros t t' L c base q HI Hc Hb E1 E2 E3 E4 E5 E6.
  assert (trS t' L) as HT by (eapply trS_tree; eauto).
  assert (0 < length (t_tree t)) as Hp by (apply pc_lt in Hb; unfold pars in Hb; rewrite map_length in Hb; lia).
  split; [split; [auto|split]|split].
  - now rewrite (curNode_ctx _ _ E3).
  - rewrite E5, E6. eapply pc_up.
    + rewrite nth_error_app2 by (unfold pars; rewrite map_length; lia). unfold pars. rewrite map_length, Nat.sub_diag. reflexivity.
    + exact Hp.
    + now apply pc_app.
  - constructor; eauto. exists []. now rewrite app_nil_r.
  - lia.
Qed.
Lemma openLeft_safe : forall ty t t' L c, ready t L c -> openLeft ty t = Ok t' ->
  ready t' L c /\ grownS t t' L /\ 0 < t_active t' /\ t_heap t' = t_heap t /\ t_slot t' = t_slot t
  /\ pc (pars (t_tree t')) (t_active t') (t_active t') /\ length (t_tree t) <= t_active t'.
Proof.
  intros ty t t' L c (HI & Hc & Ha) H. unfold openLeft, setType, setLeft in H. bind H T. bind H T1. injection H as <-.
  apply (set_pars (fun n => Node ty (n_parent n) (n_left n) (n_right n))) in E as [P1 N1]; auto.
  apply (set_pars (fun n => Node (n_type n) (n_parent n) (t_active (newBucket (setTree t T))) (n_right n))) in E0 as [P2 N2]; auto.
  cbn [t_tree newBucket setTree setActive t_active] in P2, N2. pose proof (tr_bucket _ _ HI) as HB.
  rewrite pars_app, P1 in P2. cbn [n_parent] in P2. rewrite app_length in N2. cbn in N2.
  destruct (bucket_grown t (setTree (newBucket (setTree t T)) T1) L c (t_active t) []) as (R1 & R2 & R3); auto.
  { cbn. lia. }
  split; auto. split; auto. split; auto. split; [reflexivity|]. split; [reflexivity|]. cbn. split; [|lia].
  apply pc_refl. unfold pars. rewrite map_length. lia.
Qed.
Lemma openRight_safe : forall base t t' L c, trS t L -> nth_error L (curNode t) = Some c -> pc (pars (t_tree t)) c base -> openRight base t = Ok t' ->
  ready t' L c /\ grownS t t' L.
Proof.
  intros base t t' L c HI Hc Ha H. unfold openRight, setRight in H. bind H T1. injection H as <-.
  apply (set_pars (fun n => Node (n_type n) (n_parent n) (n_left n) (t_active (newBucket (setActive t base))))) in E as [P2 N2]; auto.
  cbn [t_tree newBucket setTree setActive t_active] in P2, N2. pose proof (tr_bucket _ _ HI) as HB.
  rewrite pars_app in P2. cbn [n_parent] in P2. rewrite app_length in N2. cbn in N2.
  destruct (bucket_grown t (setTree (newBucket (setActive t base)) T1) L c base []) as (R1 & R2 & R3); auto.
  cbn. lia.
Qed.
(** The bucket a step started from is still there. *)
Lemma grown_back : forall t t' L L2 c base, grownS t t' L -> trS t' (L ++ L2) -> nth_error L (curNode t) = Some c -> pc (pars (t_tree t)) c base ->
  nth_error (L ++ L2) (curNode t') = Some c /\ pc (pars (t_tree t')) c base.
Proof.
  intros t t' L L2 c base [G1 [q G2] _] HI Hc Ha. split.
  - rewrite (curNode_ctx _ _ G1). now apply nthx.
  - rewrite G2. now apply pc_app.
Qed.

Lemma not_safe : forall k, safeStep k -> safeStep (transformNot k).
Proof.
  intros k Hk t t' L c HR H. unfold transformNot in H. bind H t1. destruct (openLeft_safe _ _ _ _ _ HR E) as (R1 & G1 & _).
  eapply grownS_here; [exact G1|apply R1|]. eapply Hk; eauto.
Qed.
Lemma bin_safe : forall ty k1 k2, safeStep k1 -> safeStep k2 -> safeStep (transformBin ty k1 k2).
Proof.
  intros ty k1 k2 H1 H2 t t' L c HR H. unfold transformBin in H. bind H t1. destruct (openLeft_safe _ _ _ _ _ HR E) as (R1 & G1 & _).
  bind H t2. pose proof (H1 _ _ _ _ R1 E0) as G2. bind H t3. destruct (g_in _ _ _ G2) as [L2 B].
  destruct HR as (HI & Hc & Ha).
  assert (grownS t t2 L) as G12 by (eapply grownS_here; [exact G1|apply R1|exact G2]).
  destruct (grown_back _ _ _ _ _ _ G12 B Hc Ha) as [Hc2 Ha2].
  destruct (openRight_safe _ _ _ _ _ B Hc2 Ha2 E1) as (R3 & G3). pose proof (H2 _ _ _ _ R3 H) as G4.
  eapply grownS_trans; [exact G12|exact B|]. eapply grownS_here; [exact G3|apply R3|exact G4].
Qed.

Lemma loop_safe : forall o m v inE sub k, safeStep k -> safeStep (transformLoop o m v inE sub k).
Proof.
  intros o m v inE sub k Hk t t' L c (HI & Hc & Ha) H. unfold transformLoop in H. bind H q. destruct q as [t1 b]. bind H q. destruct q as [t2 tg].
  destruct (pick_safe _ _ _ _ _ _ HI Hc E) as (L1 & Q0 & Hb).
  bind H t3. bind H t5. bind H t6. set (t4 := setHeap t3 (t_heap t3 ++ [emptyExec])) in *.
  (* the target is a plain field *)
  assert (exists L2, quiet t1 t2 (L ++ L1) L2 /\ forall s, tg = Some (DSlot s) -> 1 <= s <= t_slot t2) as (L2 & Q1 & Htg).
  { destruct (match inE with XField _ _ => true | _ => false end) eqn:Ef.
    - destruct inE; try discriminate. destruct (makeRef_safe o (XField root path) b t1 t2 tg _ (q_in _ _ _ _ Q0) I E0) as (L2 & Q & D).
      exists L2. split; auto. intros s ->. exact D.
    - exfalso. assert (forall q, (do (t1, d) <- dataRefIn o inE b t1; Ok (t1, Some d)) = Ok (t2, tg) -> q = true) as X.
      { intros q H0. bind H0 qq. destruct qq as [tt d]. injection H0 as <- <-.
        assert (forall s, d <> DSlot s) as Hd.
        { intros s ->. destruct inE; cbn [dataRefIn] in E4; try discriminate; try (bind E4 cc; discriminate). bind E4 cc. destruct cc. discriminate. }
        destruct b as [n|n]; cbn [addLoop lp_target] in E2; [discriminate|]. destruct d; try discriminate. exfalso. eapply Hd; eauto. }
      assert (false = true) by (destruct inE; try discriminate; apply (X false); exact E0). discriminate. }
  pose proof (quiet_trans _ _ _ _ _ _ Q0 Q1) as Q. apply nthx with (L2 := L2) in Hb. rewrite <- app_assoc in Hb. set (L12 := L1 ++ L2) in *.
  assert (ready t2 (L ++ L12) c) as R2.
  { split; [apply Q|]. split.
    - rewrite (curNode_ctx _ _ (q_ctx _ _ _ _ Q)). now apply nthx.
    - now rewrite (q_tree _ _ _ _ Q), (q_active _ _ _ _ Q). }
  destruct (openLeft_safe _ _ _ _ _ R2 E1) as (R3 & G3 & Hpos & Eh & Es & Hself & Hnew).
  set (bk := t_active t3) in *. destruct R3 as (I3 & Hc3 & Ha3).
  assert (bk <> c) as Hne.
  { destruct R2 as (_ & _ & Ha2). intro Heq.
    assert (forall ps c b, pc ps c b -> c < length ps) as Hcl.
    { clear. intros ps c b X. induction X; auto. }
    apply Hcl in Ha2. unfold pars in Ha2. rewrite map_length in Ha2. lia. }
  assert (length (t_heap t3) = length (L ++ L12)) as Hlen by (symmetry; apply I3).
  assert (trS t4 ((L ++ L12) ++ [bk])) as I4.
  { eapply trS_ext; eauto; [apply I3|]. unfold t4. cbn. apply heapS_app. apply I3. }
  assert (nth_error ((L ++ L12) ++ [bk]) (length (t_heap t3)) = Some bk) as Hn.
  { rewrite nth_error_app2 by lia. now rewrite Hlen, Nat.sub_diag. }
  apply nthx with (L2 := [bk]) in Hb.
  assert (trS t5 ((L ++ L12) ++ [bk]) /\ t_ctx t5 = t_ctx t4 /\ t_tree t5 = t_tree t4 /\ t_active t5 = t_active t4) as (I5 & Ec5 & Et5 & Ea5).
  { assert (loopS (pars (t_tree t4)) ((L ++ L12) ++ [bk]) c (LoopN (t_active t4) m tg (length (t_heap t3)))) as HL.
    { split; [exact Hn|]. split; [exact Ha3|exact Hne]. }
    destruct b as [n|n]; cbn [addLoop lp_target refNode] in *.
    - destruct tg; [discriminate|]. bind E2 x. apply idx_inv in E4. injection E2 as <-. split; [|auto].
      eapply trS_upd; eauto. intros d Hd [X1 X2 X3 X4 X5]. constructor; cbn; auto. apply Forall_app. split; auto. constructor; [|constructor].
      split; auto. assert (d = c) by congruence. subst d. exact HL.
    - destruct tg as [[|q| |]|]; try discriminate. bind E2 x. apply idx_inv in E4. destruct (x_after x) as [a|] eqn:Ea; [|discriminate].
      injection E2 as <-. split; [|auto].
      eapply trS_upd; eauto. intros d Hd [X1 X2 X3 X4 X5]. constructor; cbn; auto. intros af Eaf. injection Eaf as <-. cbn.
      destruct (X5 _ Ea) as [Y1 Y2]. split; auto. apply Forall_app. split; auto. constructor; [|constructor]. split; [|assert (d = c) by congruence; subst d; exact HL].
      exists q. split; auto. unfold t4. cbn. rewrite Es. auto. }
  assert (ready (pushContext t5 v (length (t_heap t3))) ((L ++ L12) ++ [bk]) bk) as R5.
  { split; [|split].
    - destruct I5 as [X1 X2 X3 X4]. constructor; auto. cbn. constructor; auto. cbn. eauto.
    - exact Hn.
    - cbn. rewrite Et5, Ea5. exact Hself. }
  pose proof (Hk _ _ _ _ R5 E3) as G6. destruct G6 as [Ec6 [q6 P6] [L6 I6]].
  unfold popContext in H. rewrite Ec6 in H. cbn [pushContext t_ctx setCtx] in H. rewrite Nat.eqb_refl in H. injection H as <-.
  assert (t_ctx t5 = t_ctx t) as Ect by (rewrite Ec5; unfold t4; cbn [setHeap t_ctx]; rewrite (g_ctx _ _ _ G3); apply Q).
  constructor.
  - exact Ect.
  - destruct (g_pars _ _ _ G3) as [q3 P3]. exists (q3 ++ q6). cbn [setCtx t_tree]. rewrite P6. cbn [pushContext setCtx t_tree].
    rewrite Et5. unfold t4. cbn [setHeap t_tree]. rewrite P3, (q_tree _ _ _ _ Q). now rewrite app_assoc.
  - exists (L12 ++ [bk] ++ L6). replace (L ++ L12 ++ [bk] ++ L6) with (((L ++ L12) ++ [bk]) ++ L6) by (now rewrite <- !app_assoc).
    destruct I6 as [X1 X2 X3 X4]. constructor; auto. cbn [setCtx t_ctx]. rewrite Ec6 in X4. inversion X4; auto.
Qed.

Fixpoint allSafe (l : list expr) : Prop := match l with [] => True | x :: r => functionsSafe x /\ allSafe r end.
Lemma safe_and : forall l, functionsSafe (XAnd l) <-> allSafe l.
Proof. intro l. cbn [functionsSafe]. induction l; cbn; tauto. Qed.
Lemma safe_or : forall l, functionsSafe (XOr l) <-> allSafe l.
Proof. intro l. cbn [functionsSafe]. induction l; cbn; tauto. Qed.

Lemma one_safe : forall o e, functionsSafe e -> safeStep (transformOne o e).
Proof.
  assert (safeStep (fun t => Ok t)) as Hnil.
  { intros t t' L c HI H. injection H as <-. eapply quiet_grown. apply quiet_refl. apply HI. }
  intros o e. induction e as [| |g|sa|sa|sa|a IH|l IH|l IH|r p|n l IH|m v i s IHi IHs|a IH|a IH|k l r IHl IHr] using expr_ind';
    intro HP; try exact Hnil.
  - apply not_safe; auto.
  - apply safe_and in HP. intros t t' L c HI H. rewrite transformOne_and in H. revert t t' L c HI H.
    induction IH as [|a r Ha HF IHr]; intros t t' L c HI H; [discriminate|]. destruct HP as [HP1 HP2].
    destruct r as [|b r]; [eapply Ha; eauto|]. revert t t' L c HI H. apply (bin_safe NAnd); [now apply Ha|]. exact (IHr HP2).
  - apply safe_or in HP. intros t t' L c HI H. rewrite transformOne_or in H. revert t t' L c HI H.
    induction IH as [|a r Ha HF IHr]; intros t t' L c HI H; [discriminate|]. destruct HP as [HP1 HP2].
    destruct r as [|b r]; [eapply Ha; eauto|]. revert t t' L c HI H. apply (bin_safe NOr); [now apply Ha|]. exact (IHr HP2).
  - apply loop_safe; auto.
  - now apply exists_safe.
  - apply not_safe. now apply exists_safe.
  - destruct HP as [HP1 HP2]. destruct k; try (now apply cmp_safe). apply not_safe. now apply cmp_safe.
Qed.

Lemma merge_safe : forall o es t t' ids L c, allSafe es -> ready t L c -> transformMerge o es t = Ok (t', ids) -> grownS t t' L.
Proof.
  induction es as [|e es IH]; intros t t' ids L c HP HR H; [discriminate|]. destruct HP as [HP1 HP2].
  destruct es as [|e2 es].
  - cbn [transformMerge] in H. bind H t1. injection H as <- _. eapply one_safe; eauto.
  - cbn [transformMerge] in H. fold (transformMerge o (e2 :: es)) in H.
    bind H t1. bind H t2. bind H t3. bind H q. destruct q as [t4 ids4]. injection H as <- _.
    destruct (openLeft_safe _ _ _ _ _ HR E) as (R1 & G1 & _).
    pose proof (one_safe o e HP1 _ _ _ _ R1 E0) as G2. destruct (g_in _ _ _ G2) as [L2 B].
    destruct HR as (HI & Hc & Ha).
    assert (grownS t t2 L) as G12 by (eapply grownS_here; [exact G1|apply R1|exact G2]).
    destruct (grown_back _ _ _ _ _ _ G12 B Hc Ha) as [Hc2 Ha2].
    destruct (openRight_safe _ _ _ _ _ B Hc2 Ha2 E1) as (R3 & G3). pose proof (IH _ _ _ _ _ HP2 R3 E2) as G4.
    eapply grownS_trans; [exact G12|exact B|]. eapply grownS_here; [exact G3|apply R3|exact G4].
Qed.

Lemma heapS_good : forall o T ns H L, heapS (pars T) ns H L ->
  forall n x, nth_error H n = Some x -> nodeGood o H T ns (fun n => nth n L 0) (nth n L 0) x.
Proof.
  intros o T ns H L [HL HN] n x E. destruct (HN _ _ E) as (c & Ec & [X1 X2 X3 X4 X5]). rewrite (nth_error_nth _ _ _ Ec).
  assert (forall m b, nth_error L m = Some b -> m < length H /\ nth m L 0 = b) as Hl.
  { intros m b Em. split; [rewrite <- HL; apply nth_error_Some; congruence|now apply nth_error_nth]. }
  assert (forall l, loopS (pars T) L c l -> loopGood H T (fun n => nth n L 0) c l) as HLp.
  { intros l (Y1 & Y2 & Y3). destruct (Hl _ _ Y1). repeat split; auto. now apply pc_anc. }
  assert (forall b op, opS (pars T) b ns c op -> opGood o T ns b c op) as HOp.
  { intros b op (Y1 & Y2 & Y3). destruct (op_safe o b ns op Y2 Y3). split; [now apply pc_anc|auto]. }
  constructor; auto.
  - eapply Forall_impl; [|exact X1]. intros kc Hk. now apply Hl.
  - eapply Forall_impl; [|exact X3]. apply HOp.
  - eapply Forall_impl; [|exact X4]. intros l [Y1 Y2]. auto.
  - intros af Ea. destruct (X5 af Ea) as [Y1 Y2]. split.
    + eapply Forall_impl; [|exact Y1]. apply HOp.
    + eapply Forall_impl; [|exact Y2]. intros l [(s & Z1 & Z2) Z3]. split; auto. destruct s as [|i]; [lia|]. exists i. split; auto. lia.
Qed.

Lemma allSafe_gen : forall es, allSafe es -> allSafe (genExprs es).
Proof. induction es as [|e es IH]; cbn; auto. intros [H1 H2]. destruct (isConst e); cbn; auto. Qed.
(** Every compiled filter list that is not all constants. *)
Theorem transform_safe : forall o es D, allSafe es -> genExprs es <> [] -> transform o es = Ok D ->
  exists h L, d_heap D = Some h /\ heapS (pars (d_tree D)) (d_slots D) h L /\ nth_error L 0 = Some 0 /\ 0 < length h.
Proof.
  intros o es D HP Hne H. apply allSafe_gen in HP. unfold transform in H. destruct (genExprs es) as [|g gs] eqn:Eg; [congruence|].
  bind H q. destruct q as [t ids]. destruct (validate (t_tree t)); try discriminate.
  destruct (Nat.eqb (length (t_tree t)) (t_bucket t)); [|discriminate]. injection H as <-.
  assert (ready tr0 [0] 0) as H0.
  { split; [|split]; cbn; auto.
    - constructor; cbn; auto. split; auto. intros n x E0. destruct n as [|[|n]]; try discriminate.
      injection E0 as <-. exists 0. split; auto. apply nodeS_empty.
    - apply pc_refl. cbn. lia. }
  destruct (g_in _ _ _ (merge_safe _ _ _ _ _ _ _ HP H0 E)) as [L2 A]. exists (t_heap t), ([0] ++ L2).
  split; auto. cbn [d_tree d_slots]. split; [apply A|]. split; auto.
  destruct (tr_heap _ _ A) as [X _]. rewrite <- X. cbn. lia.
Qed.
