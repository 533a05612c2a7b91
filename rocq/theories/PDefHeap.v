(** The heap of a compiled filter: references only lead to later nodes, every node is
    reached from the root, and every condition of the filter has its operation. *)
From Verif Require Import Base MTokenizer MLit MFastVal SEvents SFormula SMerge MBinTree MExpr SExpr MTransform SCompile MMatcher MDefShow SDefShow PBinTree PMerge PExpr PCompile PTerm PTermHeap PTrace.
From Coq Require Import List NArith ZArith Arith Lia Bool.
Import ListNotations.
Open Scope nat_scope.

(** ** What is kept *)
Definition cleanV (v : fval) : bool :=
  match v with
  | VInt _ | VUint _ | VFloat _ | VJsonString _ | VBinary _ | VNull | VTrue | VFalse | VInvalid | VTime _ | VRegex _ => true
  | _ => false
  end.
(** The reference made for an operand. *)
Inductive fits (o : oracles) : expr -> dref -> Prop :=
| fi_here : forall r p, fits o (XField r p) DActive
| fi_slot : forall r p s, fits o (XField r p) (DSlot s)
| fi_func : forall n l ps, Forall2 (fits o) l ps -> fits o (XFunc n l) (DFunc n ps)
| fi_const : forall e v, constRef o e = Ok v -> fits o e (DVal v).
Inductive fitsO (o : oracles) : expr -> option dref -> Prop :=
| fo_here : forall r p, fitsO o (XField r p) None
| fo_ref : forall e d, fits o e d -> fitsO o e (Some d).
Definition fitsS (o : oracles) (e : option expr) (d : option dref) : Prop := match e with None => d = None | Some e => fitsO o e d end.
Fixpoint cleanD (d : dref) : bool :=
  match d with DVal v => cleanV (fv v) | DFunc _ ps => forallb cleanD ps | _ => true end.
Definition cleanO (d : option dref) : bool := match d with None => true | Some d => cleanD d end.
Definition okOp (o : opnode) : Prop := cleanO (op_lhs o) = true /\ cleanO (op_rhs o) = true.
Definition okLoop (len n : nat) (l : loopnode) : Prop := n < lp_node l < len /\ cleanO (lp_target l) = true.
Definition okNode (len n : nat) (d : execnode) : Prop :=
  Forall (fun kc => n < snd kc < len) (x_elems d) /\ Forall okOp (x_ops d) /\ Forall (okLoop len n) (x_loops d)
  /\ forall af, x_after d = Some af -> Forall okOp (af_ops af) /\ Forall (okLoop len n) (af_loops af).
Definition okHeap (H : list execnode) : Prop := forall n d, nth_error H n = Some d -> okNode (length H) n d.
Definition allReached (H : list execnode) : Prop := forall n, n < length H -> reached H n.
Definition more (d d' : execnode) : Prop := (forall c, childOf d c -> childOf d' c) /\ (forall o, hasOp d o -> hasOp d' o).
Definition ext (H H' : list execnode) : Prop :=
  length H <= length H' /\ forall n d, nth_error H n = Some d -> exists d', nth_error H' n = Some d' /\ more d d'.
Definition keeps (H H' : list execnode) : Prop := okHeap H' /\ allReached H' /\ ext H H'.

Lemma more_refl : forall d, more d d.
Proof. intro d. split; auto. Qed.
Lemma ext_refl : forall H, ext H H.
Proof. intro H. split; [lia|]. intros n d E. exists d. split; [exact E|apply more_refl]. Qed.
Lemma ext_trans : forall A B C, ext A B -> ext B C -> ext A C.
Proof.
  intros A B C [H1 H2] [H3 H4]. split; [lia|]. intros n d E. destruct (H2 _ _ E) as (d1 & E1 & M1 & M2). destruct (H4 _ _ E1) as (d2 & E2 & M3 & M4).
  exists d2. split; [exact E2|]. split; auto.
Qed.
Lemma ext_reached : forall H H' n, ext H H' -> reached H n -> reached H' n.
Proof.
  intros H H' n [_ HE] HR. induction HR as [|n d c HR IH E HC]; [constructor|]. destruct (HE _ _ E) as (d' & E' & M & _). eapply re_child; eauto.
Qed.
Lemma okNode_more : forall len len' n d, len <= len' -> okNode len n d -> okNode len' n d.
Proof.
  intros len len' n d HL (A & B & C & D). assert (forall l, okLoop len n l -> okLoop len' n l) as X by (intros l [? ?]; split; [lia|auto]).
  split; [eapply Forall_impl; [|exact A]; cbn; intros; lia|]. split; [auto|]. split; [eapply Forall_impl; [|exact C]; auto|].
  intros af E. destruct (D af E) as [D1 D2]. split; auto. eapply Forall_impl; [|exact D2]; auto.
Qed.

Lemma upd_keeps : forall H n d d', okHeap H -> allReached H -> nth_error H n = Some d -> okNode (length H) n d' -> more d d' -> keeps H (upd H n d').
Proof.
  intros H n d d' HO HR E HN HM. assert (n < length H) as Hn by (apply nth_error_Some; congruence).
  assert (ext H (upd H n d')) as HE.
  { split; [rewrite upd_length; lia|]. intros m y Ey. destruct (Nat.eq_dec m n) as [->|Hne].
    - rewrite nth_error_upd_same by auto. exists d'. split; [auto|]. congruence.
    - rewrite nth_error_upd_other by auto. exists y. split; [auto|apply more_refl]. }
  split; [|split; [|exact HE]].
  - intros m y Ey. rewrite upd_length. destruct (Nat.eq_dec m n) as [->|Hne].
    + rewrite nth_error_upd_same in Ey by auto. injection Ey as <-. auto.
    + rewrite nth_error_upd_other in Ey by auto. auto.
  - intros m Hm. rewrite upd_length in Hm. eapply ext_reached; [exact HE|]. auto.
Qed.
Lemma grow_keeps : forall H n d d', okHeap H -> allReached H -> nth_error H n = Some d -> okNode (S (length H)) n d' -> more d d' -> childOf d' (length H) ->
  keeps H (upd H n d' ++ [emptyExec]).
Proof.
  intros H n d d' HO HR E HN HM HC. assert (n < length H) as Hn by (apply nth_error_Some; congruence).
  assert (length (upd H n d' ++ [emptyExec]) = S (length H)) as HL by (rewrite app_length, upd_length; cbn [length]; lia).
  assert (ext H (upd H n d' ++ [emptyExec])) as HE.
  { split; [lia|]. intros m y Ey. assert (m < length H) by (apply nth_error_Some; congruence). rewrite nth_error_app1 by (rewrite upd_length; lia).
    destruct (Nat.eq_dec m n) as [->|Hne].
    - rewrite nth_error_upd_same by auto. exists d'. split; [auto|]. congruence.
    - rewrite nth_error_upd_other by auto. exists y. split; [auto|apply more_refl]. }
  split; [|split; [|exact HE]].
  - intros m y Ey. rewrite HL. destruct (Nat.lt_ge_cases m (length H)) as [Hm|Hm].
    + rewrite nth_error_app1 in Ey by (rewrite upd_length; lia). destruct (Nat.eq_dec m n) as [->|Hne].
      * rewrite nth_error_upd_same in Ey by auto. injection Ey as <-. auto.
      * rewrite nth_error_upd_other in Ey by auto. eapply okNode_more; [|apply (HO _ _ Ey)]. lia.
    + rewrite nth_error_app2 in Ey by (rewrite upd_length; lia). rewrite upd_length in Ey. destruct (m - length H) as [|k]; [|destruct k; discriminate].
      injection Ey as <-. split; [constructor|]. split; [constructor|]. split; [constructor|]. discriminate.
  - intros m Hm. rewrite HL in Hm. destruct (Nat.lt_ge_cases m (length H)) as [Hm2|Hm2]; [eapply ext_reached; [exact HE|auto]|].
    replace m with (length H) by lia. eapply re_child; [eapply ext_reached; [exact HE|apply (HR n Hn)]| |exact HC].
    rewrite nth_error_app1 by (rewrite upd_length; lia). now apply nth_error_upd_same.
Qed.
Lemma upd_app : forall A (l r : list A) n x, n < length l -> upd (l ++ r) n x = upd l n x ++ r.
Proof. induction l as [|y l IH]; intros r n x Hn; cbn [length] in Hn; [lia|]. destruct n; cbn [upd app]; auto. f_equal. apply IH. lia. Qed.

(** ** The transformer *)
Definition inv (t : tr) : Prop :=
  okHeap (t_heap t) /\ allReached (t_heap t) /\ 0 < length (t_heap t) /\ Forall (fun vn => snd vn < length (t_heap t)) (t_ctx t).
Definition goes (t t' : tr) : Prop := t_ctx t' = t_ctx t /\ inv t' /\ ext (t_heap t) (t_heap t').
Lemma goes_refl : forall t, inv t -> goes t t.
Proof. intros t H. split; [auto|split; [auto|apply ext_refl]]. Qed.
Lemma goes_trans : forall a b c, goes a b -> goes b c -> goes a c.
Proof. intros a b c (A1 & A2 & A3) (B1 & B2 & B3). split; [congruence|]. split; [auto|eapply ext_trans; eauto]. Qed.
Lemma goes_keeps : forall t t', inv t -> t_ctx t' = t_ctx t -> keeps (t_heap t) (t_heap t') -> goes t t'.
Proof.
  intros t t' (A & B & C & D) Ec (K1 & K2 & K3). split; [auto|]. split; [|auto]. destruct K3 as [K3 _]. split; [auto|]. split; [auto|]. split; [lia|].
  rewrite Ec. eapply Forall_impl; [|exact D]. cbn. intros. lia.
Qed.

Lemma lookup_in : forall k l c, lookup k l = Some c -> In (k, c) l.
Proof.
  induction l as [|[k0 c0] r IH]; intros c H; cbn [lookup] in H; [discriminate|]. destruct (bytes_eqb k k0) eqn:E; [|right; auto].
  apply bytes_eqb_eq in E. injection H as ->. left. congruence.
Qed.
Lemma lookup_add : forall k l k0 c, lookup k (l ++ [(k0, c)]) = match lookup k l with Some v => Some v | None => if bytes_eqb k k0 then Some c else None end.
Proof. induction l as [|[k1 c1] r IH]; intros k0 c; cbn [app lookup]; [reflexivity|]. destruct (bytes_eqb k k1); auto. Qed.

Lemma walk_keeps : forall path h n h' n', okHeap h -> allReached h -> n < length h -> walk h n path = Ok (h', n') -> keeps h h' /\ n' < length h'.
Proof.
  induction path as [|k path IH]; intros h n h' n' HO HR Hn H; cbn [walk] in H.
  - injection H as <- <-. split; [|auto]. split; [auto|split; [auto|apply ext_refl]].
  - bind H d. apply idx_inv in E. destruct (lookup k (x_elems d)) as [c|] eqn:El.
    + apply IH in H; auto. destruct (HO _ _ E) as (A & _). rewrite Forall_forall in A. apply lookup_in in El. specialize (A _ El). cbn [snd] in A. lia.
    + assert (keeps h (upd h n (setElems d (x_elems d ++ [(k, length h)])) ++ [emptyExec])) as (K1 & K2 & K3).
      { apply (grow_keeps h n d); auto.
        - destruct (HO _ _ E) as (A & B & C & D). assert (okNode (S (length h)) n d) as (A' & B' & C' & D') by (eapply okNode_more; [|apply (HO _ _ E)]; lia).
          split; [cbn [setElems x_elems]; apply Forall_app; split; [auto|constructor; [cbn [snd]; lia|constructor]]|]. split; [auto|split; auto].
        - split; [|auto]. intros c [(k1 & Hk)|HC]; [left|right; exact HC]. exists k1. cbn [setElems x_elems]. rewrite lookup_add, Hk. reflexivity.
        - left. exists k. cbn [setElems x_elems]. rewrite lookup_add, El, bytes_eqb_refl. reflexivity. }
      apply IH in H; auto; [|rewrite app_length, upd_length; cbn [length]; lia]. destruct H as [(L1 & L2 & L3) Hn']. split; [|auto].
      split; [auto|split; [auto|eapply ext_trans; eauto]].
Qed.
Lemma getExec_goes : forall t r t' n, inv t -> (match fst r with Some c => c | None => 0 end) < length (t_heap t) -> getExecNode t r = Ok (t', n) ->
  goes t t' /\ n < length (t_heap t').
Proof.
  intros t r t' n HI Hc H. unfold getExecNode in H. bind H q. destruct q as [h n1]. injection H as <- <-. pose proof HI as (A & B & C & D).
  destruct (walk_keeps _ _ _ _ _ A B Hc E) as [K Hn]. split; [|auto]. apply goes_keeps; auto.
Qed.
Lemma resolve_in : forall t f c p, inv t -> resolveRef t f = Ok (c, p) -> (match c with Some c => c | None => 0 end) < length (t_heap t).
Proof.
  intros t f c p (A & B & C & D) H. unfold resolveRef, getContext in H. destruct (Nat.eqb (fst f) 0).
  - cbn [obind] in H. injection H as <- <-. auto.
  - destruct (t_ctx t) as [|[w n] r] eqn:Ec; [discriminate|]. destruct (Nat.eqb w (fst f)); [|discriminate]. cbn [obind] in H. injection H as <- <-.
    inversion D; subst. auto.
Qed.
Lemma cur_lt : forall t, inv t -> (match currentContext t with Some c => c | None => 0 end) < length (t_heap t).
Proof. intros t (A & B & C & D). unfold currentContext. destruct (t_ctx t) as [|[w n] r]; auto. inversion D; subst; auto. Qed.
Lemma set_goes : forall t t' n d d', inv t -> nth_error (t_heap t) n = Some d -> t_heap t' = upd (t_heap t) n d' -> t_ctx t' = t_ctx t ->
  okNode (length (t_heap t)) n d' -> more d d' -> goes t t'.
Proof. intros t t' n d d' HI E Eh Ec HN HM. apply goes_keeps; auto. rewrite Eh. destruct HI as (A & B & _). eapply upd_keeps; eauto. Qed.
Lemma store_goes : forall t n t' s, inv t -> storeExecNode t n = Ok (t', s) -> goes t t'.
Proof.
  intros t n t' s HI H. unfold storeExecNode in H. bind H d. apply idx_inv in E. destruct (Nat.eqb (x_store d) 0); injection H as <- <-; [|now apply goes_refl].
  eapply set_goes; [exact HI|exact E|reflexivity|reflexivity| |]; [apply (proj1 HI _ _ E)|split; auto].
Qed.
Lemma after_goes : forall t n t', inv t -> getAfterNode t n = Ok t' -> goes t t'.
Proof.
  intros t n t' HI H. unfold getAfterNode in H. bind H d. apply idx_inv in E. destruct (x_after d) as [af|] eqn:Ea; injection H as <-; [now apply goes_refl|].
  eapply set_goes; [exact HI|exact E|reflexivity|reflexivity| |].
  - destruct (proj1 HI _ _ E) as (A & B & C & D). split; [auto|split; [auto|split; [auto|]]]. cbn [setAfter x_after]. intros af Eaf. injection Eaf as <-. split; constructor.
  - split.
    + intros c [HC|[HC|(af & l & Eaf & _)]]; [left; exact HC|right; left; exact HC|congruence].
    + intros o [HC|(af & Eaf & _)]; [left; exact HC|congruence].
Qed.
Lemma pick_goes : forall t e t' b, inv t -> pickBaseNode t e = Ok (t', b) -> goes t t' /\ refNode b < length (t_heap t').
Proof.
  intros t e t' b HI H. unfold pickBaseNode in H. bind H fs. bind H refs. bind H q. destruct q as [best na]. bind H q. destruct q as [t1 n]. apply findBest_cur in E1.
  destruct (getExec_goes t best t1 n HI) as [G1 Hn]; auto; [rewrite E1; now apply cur_lt|]. destruct na.
  - bind H t2. injection H as <- <-. pose proof (after_goes _ _ _ (proj1 (proj2 G1)) E3) as G2. split; [eapply goes_trans; eauto|]. cbn [refNode].
    destruct G2 as (_ & _ & HL & _). lia.
  - injection H as <- <-. auto.
Qed.

Lemma const_clean : forall o e v, noPcre e = true -> constRef o e = Ok v -> cleanV (fv v) = true.
Proof.
  intros o e v HP H. destruct e; cbn [constRef noPcre] in *; try discriminate.
  - injection H as <-. cbn [fv]. destruct v0 as [| | |[]| | | | |]; reflexivity.
  - destruct (getNewTime o s); [|discriminate]. injection H as <-. reflexivity.
  - destruct (o_regexCompiles o s); [|discriminate]. injection H as <-. reflexivity.
Qed.
Lemma dataRefIn_goes : forall o e ctx t t' d, inv t -> noPcre e = true -> dataRefIn o e ctx t = Ok (t', d) -> goes t t' /\ cleanD d = true.
Proof.
  intros o. induction e as [| |g|sa|sa|sa|a IH|l IH|l IH|r p|n l IH|m v i s IHi IHs|a IH|a IH|k l IHl r IHr] using expr_ind';
    intros ctx t t' d HI HP H;
    try (cbn [dataRefIn] in H; bind H c; injection H as <- <-; split; [now apply goes_refl|]; cbn [cleanD]; eapply const_clean; [exact HP|exact E]).
  - cbn [dataRefIn] in H. bind H rr. destruct rr as [c p']. pose proof (resolve_in _ _ _ _ HI E) as Hc. bind H q. destruct q as [t1 n].
    destruct (getExec_goes t (c, p') t1 n HI Hc E0) as [G1 Hn]. destruct (isBase ctx n); [injection H as <- <-; auto|]. bind H q. destruct q as [t2 s].
    injection H as <- <-. split; [|reflexivity]. eapply goes_trans; [exact G1|]. eapply store_goes; [apply G1|exact E1].
  - rewrite dataRefIn_func in H. bind H q. destruct q as [t1 ps]. injection H as <- <-. cbn [cleanD noPcre] in *.
    revert t t1 ps HI HP E. induction IH as [|y r Hx Hr IHr]; intros t t' ps HI HP E; cbn [dataRefList] in E.
    + injection E as <- <-. split; [now apply goes_refl|reflexivity].
    + bind E q. destruct q as [t1 p]. bind E q. destruct q as [t2 ps']. injection E as <- <-. cbn [forallb] in HP |- *. apply andb_true_iff in HP as [HP1 HP2].
      destruct (Hx _ _ _ _ HI HP1 E0) as [G1 C1]. destruct (IHr _ _ _ (proj1 (proj2 G1)) HP2 E1) as [G2 C2]. split; [eapply goes_trans; eauto|]. now rewrite C1.
Qed.
Lemma makeDataRef_goes : forall o e ctx t t' d, inv t -> noPcre e = true -> makeDataRef o e ctx t = Ok (t', d) -> goes t t' /\ cleanO d = true.
Proof.
  intros o e ctx t t' d HI HP H.
  assert (forall t' d, (do (t1, d) <- dataRefIn o e ctx t; Ok (t1, Some d)) = Ok (t', d) -> goes t t' /\ cleanO d = true) as X.
  { clear - HI HP. intros t' d H. bind H q. destruct q. injection H as <- <-. eapply dataRefIn_goes; eauto. }
  destruct e; try (eapply X; eauto; fail).
  cbn [makeDataRef] in H. bind H rr. destruct rr as [c p']. pose proof (resolve_in _ _ _ _ HI E) as Hc. bind H q. destruct q as [t1 n].
  destruct (getExec_goes t (c, p') t1 n HI Hc E0) as [G1 Hn]. destruct (isBase ctx n); [injection H as <- <-; auto|]. bind H q. destruct q as [t2 s].
  injection H as <- <-. split; [|reflexivity]. eapply goes_trans; [exact G1|]. eapply store_goes; [apply G1|exact E1].
Qed.

Lemma dataRefIn_fits : forall o e ctx t t' d, dataRefIn o e ctx t = Ok (t', d) -> fits o e d.
Proof.
  intros o. induction e as [| |g|sa|sa|sa|a IH|l IH|l IH|r p|n l IH|m v i s IHi IHs|a IH|a IH|k l IHl r IHr] using expr_ind';
    intros ctx t t' d H; try (cbn [dataRefIn] in H; bind H c; injection H as <- <-; constructor; exact E).
  - cbn [dataRefIn] in H. bind H rr. bind H q. destruct q as [t1 n]. destruct (isBase ctx n); [injection H as <- <-; constructor|]. bind H q. destruct q as [t2 s].
    injection H as <- <-. constructor.
  - rewrite dataRefIn_func in H. bind H q. destruct q as [t1 ps]. injection H as <- <-. constructor.
    revert t t1 ps E. induction IH as [|y r Hx Hr IHr]; intros t t' ps E; cbn [dataRefList] in E.
    + injection E as <- <-. constructor.
    + bind E q. destruct q as [t1 p]. bind E q. destruct q as [t2 ps']. injection E as <- <-. constructor; eauto.
Qed.
Lemma makeDataRef_fits : forall o e ctx t t' d, makeDataRef o e ctx t = Ok (t', d) -> fitsO o e d.
Proof.
  intros o e ctx t t' d H.
  assert (forall t' d, (do (t1, d) <- dataRefIn o e ctx t; Ok (t1, Some d)) = Ok (t', d) -> fitsO o e d) as X.
  { clear. intros t' d H. bind H q. destruct q. injection H as <- <-. constructor. eapply dataRefIn_fits; eauto. }
  destruct e; try (eapply X; eauto; fail).
  cbn [makeDataRef] in H. bind H rr. bind H q. destruct q as [t1 n]. destruct (isBase ctx n); [injection H as <- <-; constructor|]. bind H q. destruct q as [t2 s].
  injection H as <- <-. constructor. constructor.
Qed.

Definition holdsOp (H : list execnode) (o : opnode) : Prop := exists n d, nth_error H n = Some d /\ hasOp d o.
Lemma ext_holds : forall H H' o, ext H H' -> holdsOp H o -> holdsOp H' o.
Proof. intros H H' o [_ HE] (n & d & E & HO). destruct (HE _ _ E) as (d' & E' & _ & M). exists n, d'. auto. Qed.

Lemma addOp_goes : forall t b op t', inv t -> okOp op -> addOp t b op = Ok t' -> goes t t' /\ holdsOp (t_heap t') op.
Proof.
  intros t b op t' HI HO H. destruct b as [n|n]; cbn [addOp] in H; bind H d; apply idx_inv in E.
  - injection H as <-. split.
    + eapply set_goes; [exact HI|exact E|reflexivity|reflexivity| |].
      * destruct (proj1 HI _ _ E) as (A & B & C & D). split; [auto|]. split; [cbn [setOps x_ops]; apply Forall_app; split; auto|auto].
      * split; [auto|]. intros o [HC|HC]; [left|right; exact HC]. cbn [setOps x_ops]. apply in_or_app. now left.
    + exists n, (setOps d (x_ops d ++ [op])). split; [cbn [setHeap t_heap]; apply nth_error_upd_same, nth_error_Some; congruence|].
      left. cbn [setOps x_ops]. apply in_or_app. right. now left.
  - destruct (x_after d) as [af|] eqn:Ea; [|discriminate]. injection H as <-. split.
    + eapply set_goes; [exact HI|exact E|reflexivity|reflexivity| |].
      * destruct (proj1 HI _ _ E) as (A & B & C & D). split; [auto|split; [auto|split; [auto|]]]. cbn [setAfter x_after]. intros af' Eaf. injection Eaf as <-.
        destruct (D _ Ea) as [D1 D2]. split; [|auto]. cbn [af_ops]. apply Forall_app. split; auto.
      * split.
        -- intros c [HC|[HC|(af' & l & Eaf & HL & HC)]]; [left; exact HC|right; left; exact HC|]. right. right. rewrite Ea in Eaf. injection Eaf as <-.
           exists (AfterN (af_ops af ++ [op]) (af_loops af)), l. auto.
        -- intros o [HC|(af' & Eaf & HL)]; [left; exact HC|]. right. rewrite Ea in Eaf. injection Eaf as <-.
           exists (AfterN (af_ops af ++ [op]) (af_loops af)). split; [reflexivity|]. cbn [af_ops]. apply in_or_app. now left.
    + eexists n, _. split; [cbn [setHeap t_heap]; apply nth_error_upd_same, nth_error_Some; congruence|].
      right. exists (AfterN (af_ops af ++ [op]) (af_loops af)). split; [reflexivity|]. cbn [af_ops]. apply in_or_app. right. now left.
Qed.

(** The loop node is made first and added to its parent then. *)
Lemma addLoop_goes : forall t b l t', inv t -> refNode b < length (t_heap t) -> lp_node l = length (t_heap t) -> cleanO (lp_target l) = true ->
  addLoop (setHeap t (t_heap t ++ [emptyExec])) b l = Ok t' -> goes t t' /\ length (t_heap t) < length (t_heap t').
Proof.
  intros t b l t' HI Hb Hl HC H. pose proof HI as (A & B & C & D).
  assert (forall d d', nth_error (t_heap t) (refNode b) = Some d -> okNode (S (length (t_heap t))) (refNode b) d' -> more d d' -> childOf d' (length (t_heap t)) ->
    t_heap t' = upd (t_heap t ++ [emptyExec]) (refNode b) d' -> t_ctx t' = t_ctx t -> goes t t' /\ length (t_heap t) < length (t_heap t')) as X.
  { intros d d' E HN HM HCh Eh Ec. rewrite upd_app in Eh by auto. split.
    - apply goes_keeps; auto. rewrite Eh. eapply grow_keeps; eauto.
    - rewrite Eh, app_length, upd_length. cbn [length]. lia. }
  destruct b as [n|n]; cbn [addLoop refNode setHeap t_heap] in *.
  - destruct (lp_target l) eqn:Et; [discriminate|]. bind H d. apply idx_inv in E. rewrite nth_error_app1 in E by auto. injection H as <-.
    eapply (X d); [exact E| | | |reflexivity|reflexivity].
    + assert (okNode (S (length (t_heap t))) n d) as (A' & B' & C' & D') by (eapply okNode_more; [|apply (A _ _ E)]; lia).
      split; [auto|split; [auto|split; [|auto]]]. cbn [setLoops x_loops]. apply Forall_app. split; [auto|]. constructor; [|constructor]. split; [lia|now rewrite Et].
    + split; [|auto]. intros c [HX|[(l0 & HX & HY)|HX]]; [left; exact HX|right; left|right; right; exact HX]. exists l0. split; [|auto]. cbn [setLoops x_loops]. apply in_or_app. now left.
    + right. left. exists l. split; [|auto]. cbn [setLoops x_loops]. apply in_or_app. right. now left.
  - destruct (lp_target l) as [[| | |]|] eqn:Et; try discriminate. bind H d. apply idx_inv in E. rewrite nth_error_app1 in E by auto.
    destruct (x_after d) as [af|] eqn:Ea; [|discriminate]. injection H as <-.
    eapply (X d); [exact E| | | |reflexivity|reflexivity].
    + assert (okNode (S (length (t_heap t))) n d) as (A' & B' & C' & D') by (eapply okNode_more; [|apply (A _ _ E)]; lia).
      split; [auto|split; [auto|split; [auto|]]]. cbn [setAfter x_after]. intros af' Eaf. injection Eaf as <-. destruct (D' _ Ea) as [D1 D2]. split; [auto|]. cbn [af_loops].
      apply Forall_app. split; [auto|]. constructor; [|constructor]. split; [lia|now rewrite Et].
    + split.
      * intros c [HX|[HX|(af' & l0 & Eaf & HY & HZ)]]; [left; exact HX|right; left; exact HX|right; right]. rewrite Ea in Eaf. injection Eaf as <-.
        exists (AfterN (af_ops af) (af_loops af ++ [l])), l0. split; [reflexivity|]. split; [|auto]. cbn [af_loops]. apply in_or_app. now left.
      * intros o [HX|(af' & Eaf & HY)]; [left; exact HX|right]. rewrite Ea in Eaf. injection Eaf as <-. exists (AfterN (af_ops af) (af_loops af ++ [l])). split; [reflexivity|exact HY].
    + right. right. exists (AfterN (af_ops af) (af_loops af ++ [l])), l. split; [reflexivity|]. split; [|auto]. cbn [af_loops]. apply in_or_app. right. now left.
Qed.

(** ** Every condition has its operation *)
Definition found (o : oracles) (H : list execnode) (c : cond) : Prop :=
  exists p, holdsOp H p /\ op_bucket p = c_at c /\ op_op p = c_op c /\ fitsO o (c_lhs c) (op_lhs p) /\ fitsS o (c_rhs c) (op_rhs p).
Definition puts (o : oracles) (k : tr -> outcome tr) (f : form) (cs : nat -> list cond) : Prop :=
  grows k f /\ forall t T0 p t', openAt t T0 p -> inv t -> k t = Ok t' -> goes t t' /\ Forall (found o (t_heap t')) (cs (length T0)).
Lemma found_ext : forall o H H' io, ext H H' -> found o H io -> found o H' io.
Proof. intros o H H' io HE (p & A & B). exists p. split; [eapply ext_holds; eauto|auto]. Qed.
Lemma goes_same : forall t t', inv t -> t_heap t' = t_heap t -> t_ctx t' = t_ctx t -> goes t t'.
Proof. intros t t' HI Eh Ec. split; [auto|]. unfold inv. rewrite Eh, Ec. split; [exact HI|apply ext_refl]. Qed.

Lemma puts_nothing : forall o k f, grows k f -> (forall t, k t = Ok t) -> puts o k f (fun _ => []).
Proof. intros o k f HG HK. split; [exact HG|]. intros t T0 p t' HO HI H. rewrite HK in H. injection H as <-. split; [now apply goes_refl|constructor]. Qed.
Lemma puts_not : forall o k f cs, puts o k f cs -> puts o (transformNot k) (FNot f) (fun i => cs (S i)).
Proof.
  intros o k f cs [HG HK]. split; [now apply grows_not|]. intros t T0 p t' HO HI H. unfold transformNot in H.
  destruct (openLeft_spec NNot t T0 p HO) as (t1 & E & Ec & Eh & _ & HO1). rewrite E in H. cbn [obind] in H.
  pose proof (goes_same _ _ HI Eh Ec) as G1. destruct (HK _ _ _ _ HO1 (proj1 (proj2 G1)) H) as [G2 HF]. split; [eapply goes_trans; eauto|].
  rewrite app_length in HF. cbn [length] in HF. now rewrite Nat.add_1_r in HF.
Qed.
Lemma puts_bin : forall o bo k1 f1 c1 k2 f2 c2, puts o k1 f1 c1 -> puts o k2 f2 c2 ->
  puts o (transformBin (btype bo) k1 k2) (FBin bo f1 f2) (fun i => c1 (S i) ++ c2 (S i + fsize f1)).
Proof.
  intros o bo k1 f1 c1 k2 f2 c2 [G1 K1] [G2 K2]. split; [now apply grows_bin|]. intros t T0 p t' HO HI H. unfold transformBin in H.
  destruct (openLeft_spec (btype bo) t T0 p HO) as (t1 & E & Ec & Eh & _ & HO1). rewrite E in H. cbn [obind] in H.
  pose proof (goes_same _ _ HI Eh Ec) as GA. bind H t2. destruct (K1 _ _ _ _ HO1 (proj1 (proj2 GA)) E0) as [GB HF1].
  apply (G1 _ _ _ _ HO1) in E0 as [HT HB]. rewrite <- app_assoc in HT. cbn [app] in HT. rewrite app_length in *. cbn [length] in *. rewrite Nat.add_1_r in *.
  assert (t_active t = length T0) as EA by apply HO. rewrite EA in H.
  destruct (openRight_spec (btype bo) t2 T0 p f1 HT) as (t3 & E3 & Ec3 & Eh3 & _ & HO3); [lia|]. rewrite E3 in H. cbn [obind] in H.
  pose proof (goes_same _ _ (proj1 (proj2 GB)) Eh3 Ec3) as GC. destruct (K2 _ _ _ _ HO3 (proj1 (proj2 GC)) H) as [GD HF2].
  split; [eapply goes_trans; [exact GA|]; eapply goes_trans; [exact GB|]; eapply goes_trans; [exact GC|exact GD]|].
  apply Forall_app. split.
  - eapply Forall_impl; [|exact HF1]. intros io. apply found_ext. eapply ext_trans; [apply GC|apply GD].
  - rewrite app_length in HF2. cbn [length] in HF2. rewrite lay_length in HF2. now replace (length T0 + S (fsize f1)) with (S (length T0) + fsize f1) in HF2 by lia.
Qed.
Lemma puts_cmp : forall o e op l r, noPcre l = true -> noPcre r = true -> puts o (transformComparison o e op l r) FLeaf (fun i => [Cond i op l (Some r)]).
Proof.
  intros o e op l r HP1 HP2. split; [apply grows_cmp|]. intros t T0 p t' HO HI H. unfold transformComparison in H.
  bind H q. destruct q as [t1 b]. bind H q. destruct q as [t2 dl]. bind H q. destruct q as [t3 dr].
  destruct (pick_goes _ _ _ _ HI E) as [G1 _]. destruct (makeDataRef_goes _ _ _ _ _ _ (proj1 (proj2 G1)) HP1 E0) as [G2 C1].
  destruct (makeDataRef_goes _ _ _ _ _ _ (proj1 (proj2 G2)) HP2 E1) as [G3 C2].
  pose proof (makeDataRef_fits _ _ _ _ _ _ E0) as F1. pose proof (makeDataRef_fits _ _ _ _ _ _ E1) as F2.
  assert (t_active t3 = length T0) as EA.
  { apply pickBaseNode_tpart in E. apply makeDataRef_tpart in E0, E1. apply tpart_inv in E as (_ & _ & ?), E0 as (_ & _ & ?), E1 as (_ & _ & ?). destruct HO as (_ & _ & ?). congruence. }
  destruct (addOp_goes _ _ _ _ (proj1 (proj2 G3)) (conj C1 C2 : okOp (OpN (t_active t3) op dl dr)) H) as [G4 HF].
  split; [eapply goes_trans; [exact G1|]; eapply goes_trans; [exact G2|]; eapply goes_trans; [exact G3|exact G4]|].
  constructor; [|constructor]. eexists. split; [exact HF|]. split; [exact EA|]. split; [reflexivity|]. split; [assumption|]. assumption || reflexivity.
Qed.
Lemma puts_exists : forall o a, noPcre a = true -> puts o (transformExists o a) FLeaf (fun i => [Cond i OpExists a None]).
Proof.
  intros o a HP. split; [apply grows_exists|]. intros t T0 p t' HO HI H. unfold transformExists in H.
  bind H q. destruct q as [t1 b]. bind H q. destruct q as [t2 d].
  destruct (pick_goes _ _ _ _ HI E) as [G1 _]. destruct (makeDataRef_goes _ _ _ _ _ _ (proj1 (proj2 G1)) HP E0) as [G2 C1].
  pose proof (makeDataRef_fits _ _ _ _ _ _ E0) as F1.
  assert (t_active t2 = length T0) as EA.
  { apply pickBaseNode_tpart in E. apply makeDataRef_tpart in E0. apply tpart_inv in E as (_ & _ & ?), E0 as (_ & _ & ?). destruct HO as (_ & _ & ?). congruence. }
  destruct (addOp_goes _ _ _ _ (proj1 (proj2 G2)) (conj C1 eq_refl : okOp (OpN (t_active t2) OpExists d None)) H) as [G4 HF].
  split; [eapply goes_trans; [exact G1|]; eapply goes_trans; [exact G2|exact G4]|].
  constructor; [|constructor]. eexists. split; [exact HF|]. split; [exact EA|]. split; [reflexivity|]. split; [assumption|]. assumption || reflexivity.
Qed.
Lemma puts_loop : forall o m v i s k f cs, noPcre i = true -> puts o k f cs -> puts o (transformLoop o m v i s k) (FLoop f) (fun i => cs (S i)).
Proof.
  intros o m v i s k f cs HP [HG HK]. split; [now apply grows_loop|]. intros t T0 p t' HO HI H. unfold transformLoop in H.
  bind H q. destruct q as [t1 b]. bind H q. destruct q as [t2 tg].
  destruct (pick_goes _ _ _ _ HI E) as [G1 Hb]. destruct (makeDataRef_goes _ _ _ _ _ _ (proj1 (proj2 G1)) HP E0) as [G2 C1].
  apply pickBaseNode_tpart in E. apply makeDataRef_tpart in E0.
  assert (openAt t2 T0 p) as HO2 by (eapply openAt_tpart; [|exact HO]; congruence).
  destruct (openLeft_spec NLoop t2 T0 p HO2) as (t3 & E3 & Ec3 & Eh3 & _ & HO3). rewrite E3 in H. cbn [obind] in H.
  pose proof (goes_same _ _ (proj1 (proj2 G2)) Eh3 Ec3) as G3. bind H t5.
  destruct (addLoop_goes t3 b (LoopN (t_active t3) m tg (length (t_heap t3))) t5) as [G4 HL]; [apply G3| |reflexivity|exact C1|exact E1|].
  { rewrite Eh3. destruct G2 as (_ & _ & HL & _). lia. }
  apply addLoop_tpart in E1. bind H t6.
  assert (openAt (pushContext t5 v (length (t_heap t3))) (T0 ++ [Node NLoop p (S (length T0)) 0]) (length T0)) as HO5.
  { eapply openAt_tpart; [|exact HO3]. etransitivity; [|exact E1]. reflexivity. }
  assert (inv (pushContext t5 v (length (t_heap t3)))) as HI5.
  { destruct G4 as (_ & (A & B & C & D) & _). split; [exact A|split; [exact B|split; [exact C|]]]. cbn [pushContext setCtx t_ctx t_heap]. constructor; [exact HL|exact D]. }
  destruct (HK _ _ _ _ HO5 HI5 E2) as [(Ec6 & HI6 & HE6) HF].
  unfold popContext in H. rewrite Ec6 in H. cbn [pushContext setCtx t_ctx] in H. rewrite Nat.eqb_refl in H. injection H as <-.
  rewrite app_length in HF. cbn [length] in HF. rewrite Nat.add_1_r in HF. split; [|exact HF].
  eapply goes_trans; [exact G1|]. eapply goes_trans; [exact G2|]. eapply goes_trans; [exact G3|]. eapply goes_trans; [exact G4|].
  split; [reflexivity|]. split; [|exact HE6]. destruct HI6 as (A & B & C & D). split; [exact A|split; [exact B|split; [exact C|]]].
  cbn [setCtx t_ctx t_heap]. rewrite Ec6 in D. cbn [pushContext setCtx t_ctx] in D. inversion D; subst. assumption.
Qed.

Fixpoint chainConditions (i : nat) (l : list expr) : list cond :=
  match l with
  | [] => []
  | [a] => conditions i a
  | a :: r => conditions (S i) a ++ chainConditions (S i + fsize (structure a)) r
  end.
Lemma conditions_and : forall l i, conditions i (XAnd l) = chainConditions i l.
Proof. reflexivity. Qed.
Lemma conditions_or : forall l i, conditions i (XOr l) = chainConditions i l.
Proof. reflexivity. Qed.
Lemma puts_chain : forall o op l, Forall (fun e => noPcre e = true -> puts o (transformOne o e) (structure e) (fun i => conditions i e)) l -> forallb noPcre l = true ->
  puts o (transformChain o (btype op) l) (joined op (map structure l)) (fun i => chainConditions i l).
Proof.
  intros o op l HF. induction HF as [|a r Ha Hr IH]; intro HP.
  - split; [intros t T0 p t' HO H; discriminate|]. intros t T0 p t' HO HI H. discriminate.
  - cbn [forallb] in HP. apply andb_true_iff in HP as [HP1 HP2]. destruct r as [|b r]; [exact (Ha HP1)|].
    exact (puts_bin o op _ _ _ _ _ _ (Ha HP1) (IH HP2)).
Qed.
Lemma puts_ext : forall o k k' f cs cs', puts o k f cs -> (forall t, k' t = k t) -> (forall i, cs' i = cs i) -> puts o k' f cs'.
Proof.
  intros o k k' f cs cs' [HG HK] Ek Ecs. split; [intros t T0 p t' HO H; rewrite Ek in H; eauto|]. intros t T0 p t' HO HI H. rewrite Ek in H. rewrite Ecs. eauto.
Qed.
Lemma puts_one : forall o e, noPcre e = true -> puts o (transformOne o e) (structure e) (fun i => conditions i e).
Proof.
  intros o. induction e as [| |g|sa|sa|sa|a IH|l IH|l IH|r p|n l IH|m v i s IHi IHs|a IH|a IH|k l r IHl IHr] using expr_ind'; intro HP;
    try (apply puts_nothing; [apply grows_one|reflexivity]; fail); cbn [noPcre] in HP.
  - apply (puts_not _ _ _ (fun i => conditions i a)). auto.
  - eapply puts_ext; [apply (puts_chain o BAnd l); auto|apply transformOne_and|apply conditions_and].
  - eapply puts_ext; [apply (puts_chain o BOr l); auto|apply transformOne_or|apply conditions_or].
  - apply andb_true_iff in HP as [HP1 HP2]. apply (puts_loop o m v i s _ _ (fun i => conditions i s)); auto.
  - now apply puts_exists.
  - apply (puts_not _ _ _ (fun i => [Cond i OpExists a None])). now apply puts_exists.
  - apply andb_true_iff in HP as [HP1 HP2]. destruct k; try (now apply puts_cmp). apply (puts_not _ _ _ (fun i => [Cond i OpEquals l (Some r)])). now apply puts_cmp.
Qed.
Lemma puts_merge : forall o es e, noPcre e = true -> forallb noPcre es = true -> forall t T0 p t' ids, openAt t T0 p -> inv t -> transformMerge o (e :: es) t = Ok (t', ids) ->
  goes t t' /\ Forall (found o (t_heap t')) (allConditions (length T0) e es).
Proof.
  intros o. induction es as [|e2 es IH]; intros e HP HPs t T0 p t' ids HO HI H.
  - cbn [transformMerge] in H. bind H t1. injection H as <- <-. exact (proj2 (puts_one o e HP) _ _ _ _ HO HI E).
  - change (transformMerge o (e :: e2 :: es) t) with
      (do t1 <- openLeft NNeor t; do t2 <- transformOne o e t1; do t3 <- openRight (t_active t) t2;
       do (t4, ids) <- transformMerge o (e2 :: es) t3; Ok (t4, t_active t1 :: ids)) in H.
    cbn [forallb] in HPs. apply andb_true_iff in HPs as [HP2 HPs].
    destruct (openLeft_spec NNeor t T0 p HO) as (t1 & E & Ec & Eh & _ & HO1). rewrite E in H. cbn [obind] in H.
    pose proof (goes_same _ _ HI Eh Ec) as GA. bind H t2. destruct (proj2 (puts_one o e HP) _ _ _ _ HO1 (proj1 (proj2 GA)) E0) as [GB HF1].
    apply (grows_one _ _ _ _ _ _ HO1) in E0 as [HT HB].
    rewrite <- app_assoc in HT. cbn [app] in HT. rewrite app_length in *. cbn [length] in *. rewrite Nat.add_1_r in *.
    assert (t_active t = length T0) as EA by apply HO. rewrite EA in H.
    destruct (openRight_spec NNeor t2 T0 p (structure e) HT) as (t3 & E3 & Ec3 & Eh3 & _ & HO3); [lia|].
    rewrite E3 in H. cbn [obind] in H. bind H q. destruct q as [t4 ids']. injection H as <- <-.
    pose proof (goes_same _ _ (proj1 (proj2 GB)) Eh3 Ec3) as GC.
    destruct (IH e2 HP2 HPs _ _ _ _ _ HO3 (proj1 (proj2 GC)) E0) as [GD HF2].
    split; [eapply goes_trans; [exact GA|]; eapply goes_trans; [exact GB|]; eapply goes_trans; [exact GC|exact GD]|].
    cbn [allConditions]. apply Forall_app. split.
    + eapply Forall_impl; [|exact HF1]. intros io. apply found_ext. eapply ext_trans; [apply GC|apply GD].
    + rewrite app_length in HF2. cbn [length] in HF2. rewrite lay_length in HF2. now replace (length T0 + S (fsize (structure e))) with (S (length T0) + fsize (structure e)) in HF2 by lia.
Qed.
Lemma inv_tr0 : inv tr0.
Proof.
  split; [|split; [|split; [cbn; lia|constructor]]].
  - intros n d E. destruct n as [|n]; [|destruct n; discriminate]. injection E as <-. split; [constructor|split; [constructor|split; [constructor|discriminate]]].
  - intros n Hn. cbn in Hn. replace n with 0 by lia. constructor.
Qed.
