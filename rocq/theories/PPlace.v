(** Compilation, the program part: where each operation and loop of the
    expressions ends up, and that compilation succeeds. *)
From Verif Require Import Base MTokenizer MLit MFastVal SEvents SFormula SMerge MBinTree MExpr SExpr MTransform SCompile SFilter
  PBinTree PMerge PExpr TExpr PCompile.
From Coq Require Import List NArith ZArith Arith Lia Bool.
Import ListNotations.
Open Scope nat_scope.

Notation addr := (nat * list bytes)%type.

(** ** Contents of nodes *)
Inductive item := IOp (op : opnode) | ILoop (l : loopnode).
Definition contents (x : execnode) (aft : bool) : list item :=
  if aft then match x_after x with Some af => map IOp (af_ops af) ++ map ILoop (af_loops af) | None => [] end
  else map IOp (x_ops x) ++ map ILoop (x_loops x).
Definition itemIn (h : list execnode) (n : nat) (aft : bool) (it : item) : Prop :=
  exists x, nth_error h n = Some x /\ In it (contents x aft).
Definition hasAfter (h : list execnode) (n : nat) : Prop :=
  exists x af, nth_error h n = Some x /\ x_after x = Some af.
Definition sameC (h h' : list execnode) : Prop :=
  (forall n aft it, itemIn h' n aft it <-> itemIn h n aft it) /\ (forall n, hasAfter h n -> hasAfter h' n).

Lemma sameC_refl : forall h, sameC h h.
Proof. split; [tauto|auto]. Qed.
Lemma sameC_trans : forall a b c, sameC a b -> sameC b c -> sameC a c.
Proof. intros a b c [H1 H2] [H3 H4]. split; auto. intros. rewrite H3. apply H1. Qed.

Lemma nthu : forall {X} (l : list X) i x j, i < length l ->
  nth_error (upd l i x) j = if Nat.eqb j i then Some x else nth_error l j.
Proof.
  induction l as [|y l IHl]; intros i x j Hi; cbn in Hi; [lia|].
  destruct i as [|i], j as [|j]; cbn; auto. rewrite IHl by lia. reflexivity.
Qed.
Lemma nth_lt : forall {X} (l : list X) i x, nth_error l i = Some x -> i < length l.
Proof. intros X l i x E. apply nth_error_Some. congruence. Qed.
Lemma nth_snoc : forall {X} (l : list X) x j, nth_error (l ++ [x]) j = if Nat.eqb j (length l) then Some x else nth_error l j.
Proof.
  intros X l x j. destruct (Nat.eqb_spec j (length l)) as [->|Hne].
  - rewrite nth_error_app2 by lia. now rewrite Nat.sub_diag.
  - destruct (Nat.lt_ge_cases j (length l)); [now rewrite nth_error_app1|].
    rewrite nth_error_app2 by lia. replace (nth_error l j) with (@None X) by (symmetry; apply nth_error_None; lia).
    destruct (j - length l) as [|m] eqn:E; [lia|]. cbn. now destruct m.
Qed.
Lemma nth_app_l : forall {X} (l m : list X) i x, nth_error l i = Some x -> nth_error (l ++ m) i = Some x.
Proof. intros X l m i x E. rewrite nth_error_app1; auto. eapply nth_lt; eauto. Qed.

Lemma sameC_upd : forall h n x y, nth_error h n = Some x -> (forall aft, contents y aft = contents x aft) ->
  (x_after x <> None -> x_after y <> None) -> sameC h (upd h n y).
Proof.
  intros h n x y E HC HA. pose proof (nth_lt _ _ _ E) as Hn. split.
  - intros m aft it. unfold itemIn. rewrite (nthu h n y m Hn). destruct (Nat.eqb_spec m n) as [->|]; [|tauto].
    split; intros (z & Ez & Hz).
    + inversion Ez; subst. exists x. now rewrite <- HC.
    + rewrite E in Ez. inversion Ez; subst. exists y. now rewrite HC.
  - intros m (z & af & Ez & Ha). unfold hasAfter. rewrite (nthu h n y m Hn). destruct (Nat.eqb_spec m n) as [->|]; [|eauto].
    rewrite E in Ez. inversion Ez; subst z. destruct (x_after y) as [a|] eqn:Ey; [eauto|]. exfalso. apply HA; congruence.
Qed.
Lemma sameC_new : forall h, sameC h (h ++ [emptyExec]).
Proof.
  intro h. split.
  - intros n aft it. unfold itemIn. rewrite nth_snoc. destruct (Nat.eqb_spec n (length h)) as [->|]; [|tauto].
    split; intros (z & Ez & Hz).
    + inversion Ez; subst. destruct aft; destruct Hz.
    + assert (length h < length h) by (eapply nth_lt; eauto). lia.
  - intros n (z & af & Ez & Ha). exists z, af. split; auto. now apply nth_app_l.
Qed.

(** ** Addresses of nodes and owners of slots *)
Record rep (h : list execnode) (ns : nat) (A ow : list addr) : Prop := {
  rp_len : length A = length h;
  rp_nd : NoDup A;
  rp_elem : forall n x c p k m, nth_error h n = Some x -> nth_error A n = Some (c, p) ->
    lookup k (x_elems x) = Some m -> n < m /\ nth_error A m = Some (c, p ++ [k]);
  rp_par : forall m c p k, nth_error A m = Some (c, p ++ [k]) ->
    exists n x, nth_error A n = Some (c, p) /\ nth_error h n = Some x /\ lookup k (x_elems x) = Some m;
  rp_slots : length ow = ns;
  rp_store : forall n x c p, nth_error h n = Some x -> nth_error A n = Some (c, p) ->
    forall i, x_store x = S i <-> nth_error ow i = Some (c, p);
  rp_owner : forall i a, nth_error ow i = Some a -> In a A
}.

Lemma rep_node : forall h ns A ow n a, rep h ns A ow -> nth_error A n = Some a -> exists x, nth_error h n = Some x.
Proof.
  intros h ns A ow n a R E. apply nth_lt in E. rewrite (rp_len _ _ _ _ R) in E.
  destruct (nth_error h n) eqn:X; eauto. apply nth_error_None in X. lia.
Qed.
Lemma rep_inj : forall h ns A ow n m a, rep h ns A ow -> nth_error A n = Some a -> nth_error A m = Some a -> n = m.
Proof.
  intros h ns A ow n m a R E1 E2. eapply NoDup_nth_error; [apply R|eapply nth_lt; eauto|congruence].
Qed.
Lemma idx_ok : forall {X} (l : list X) i y, nth_error l i = Some y -> idx l i = Ok y.
Proof. intros X l i y E. unfold idx. now rewrite E. Qed.

(** An update that keeps children and store. *)
Lemma rep_upd : forall h ns A ow n x y, rep h ns A ow -> nth_error h n = Some x ->
  x_elems y = x_elems x -> x_store y = x_store x -> rep (upd h n y) ns A ow.
Proof.
  intros h ns A ow n x y R E HE HS. pose proof (nth_lt _ _ _ E) as Hn. destruct R as [R1 R2 R3 R4 R5 R6 R7].
  constructor; auto.
  - now rewrite upd_length.
  - intros m z c p k q. rewrite (nthu h n y m Hn). destruct (Nat.eqb_spec m n) as [->|]; [|eauto].
    intros Ez Ea El. inversion Ez; subst z. rewrite HE in El. eauto.
  - intros m c p k Ea. destruct (R4 m c p k Ea) as (nn & xx & Q1 & Q2 & Q3).
    exists nn. rewrite (nthu h n y nn Hn). destruct (Nat.eqb_spec nn n) as [->|].
    + exists y. rewrite E in Q2. inversion Q2; subst xx. rewrite HE. auto.
    + exists xx. auto.
  - intros m z c p. rewrite (nthu h n y m Hn). destruct (Nat.eqb_spec m n) as [->|]; [|eauto].
    intros Ez Ea i. inversion Ez; subst z. rewrite HS. eauto.
Qed.

(** A fresh root node for a new context. *)
Lemma rep_new : forall h ns A ow c, rep h ns A ow -> ~ In (c, []) A -> rep (h ++ [emptyExec]) ns (A ++ [(c, [])]) ow.
Proof.
  intros h ns A ow c [R1 R2 R3 R4 R5 R6 R7] Hf. constructor; auto.
  - rewrite !app_length. cbn. lia.
  - now apply NoDup_snoc.
  - intros n x c' p k m. rewrite !nth_snoc, R1. destruct (Nat.eqb_spec n (length h)) as [->|]; intros Ex Ea El.
    + inversion Ex; subst. discriminate.
    + destruct (R3 _ _ _ _ _ _ Ex Ea El) as [Q1 Q2]. split; auto. apply nth_lt in Q2 as Q3. rewrite R1 in Q3.
      destruct (Nat.eqb_spec m (length h)); [lia|auto].
  - intros m c' p k. rewrite nth_snoc. destruct (Nat.eqb_spec m (length A)) as [->|]; intro Ea.
    + inversion Ea as [[E1 E2]]. now destruct p.
    + destruct (R4 _ _ _ _ Ea) as (nn & x & Q1 & Q2 & Q3). exists nn, x. split; [|split]; auto; now apply nth_app_l.
  - intros n x c' p. rewrite !nth_snoc, R1. destruct (Nat.eqb_spec n (length h)) as [->|]; [|eauto].
    intros Ex Ea i. inversion Ex; subst. inversion Ea; subst. cbn. split; [discriminate|]. intro Eo. exfalso. apply Hf. eapply R7; eauto.
  - intros i a Ea. apply in_app_iff. left. eauto.
Qed.

(** ** Walking *)
Lemma lookup_app : forall k l m, lookup k (l ++ m) = match lookup k l with Some v => Some v | None => lookup k m end.
Proof. induction l as [|[x v] l IH]; intro m; cbn; auto. destruct (bytes_eqb k x); auto. Qed.

Lemma rep_child : forall h ns A ow n x c p k, rep h ns A ow -> nth_error h n = Some x -> nth_error A n = Some (c, p) ->
  lookup k (x_elems x) = None ->
  rep (upd h n (setElems x (x_elems x ++ [(k, length h)])) ++ [emptyExec]) ns (A ++ [(c, p ++ [k])]) ow.
Proof.
  intros h ns A ow n x c p k R Ex Ea El.
  assert (~ In (c, p ++ [k]) A) as Hf.
  { intro HI. apply In_nth_error in HI as (m & Em). destruct (rp_par _ _ _ _ R _ _ _ _ Em) as (n' & x' & Q1 & Q2 & Q3).
    assert (n' = n) as -> by (eapply rep_inj; eauto). congruence. }
  pose proof (nth_lt _ _ _ Ex) as Hn. destruct R as [R1 R2 R3 R4 R5 R6 R7].
  constructor; auto.
  - rewrite !app_length, upd_length. cbn. lia.
  - now apply NoDup_snoc.
  - intros nn xx c' p' k' m. rewrite !nth_snoc, upd_length, R1.
    destruct (Nat.eqb_spec nn (length h)) as [->|Hne]; intros Q1 Q2 Q3; [inversion Q1; subst; discriminate|].
    rewrite nthu in Q1 by auto. destruct (Nat.eqb_spec nn n) as [->|].
    + inversion Q1; subst xx. cbn [x_elems setElems] in Q3. rewrite lookup_app in Q3. rewrite Ea in Q2. inversion Q2; subst c' p'.
      destruct (lookup k' (x_elems x)) as [v|] eqn:Ek.
      * inversion Q3; subst v. destruct (R3 _ _ _ _ _ _ Ex Ea Ek) as [Q4 Q5]. split; auto. apply nth_lt in Q5 as Q6. rewrite R1 in Q6.
        destruct (Nat.eqb_spec m (length h)); [lia|auto].
      * cbn in Q3. destruct (bytes_eqb k' k) eqn:Eb; [|discriminate]. inversion Q3; subst m. apply bytes_eqb_eq in Eb. subst k'.
        rewrite Nat.eqb_refl. split; auto.
    + destruct (R3 _ _ _ _ _ _ Q1 Q2 Q3) as [Q4 Q5]. split; auto. apply nth_lt in Q5 as Q6. rewrite R1 in Q6.
      destruct (Nat.eqb_spec m (length h)); [lia|auto].
  - intros m c' p' k'. rewrite nth_snoc. destruct (Nat.eqb_spec m (length A)) as [->|]; intro Em.
    + inversion Em as [[E1 E2]]. apply app_inj_tail in E2 as [-> ->]. subst c'.
      exists n, (setElems x (x_elems x ++ [(k', length h)])). split; [now apply nth_app_l|]. split.
      * apply nth_app_l. rewrite nthu by auto. now rewrite Nat.eqb_refl.
      * cbn. rewrite lookup_app, El. cbn. rewrite bytes_eqb_refl. now rewrite R1.
    + destruct (R4 _ _ _ _ Em) as (nn & xx & Q1 & Q2 & Q3). destruct (Nat.eq_dec nn n) as [->|].
      * rewrite Ex in Q2. inversion Q2; subst xx. exists n, (setElems x (x_elems x ++ [(k, length h)])).
        split; [now apply nth_app_l|]. split; [apply nth_app_l; rewrite nthu by auto; now rewrite Nat.eqb_refl|].
        cbn. rewrite lookup_app, Q3. reflexivity.
      * exists nn, xx. split; [now apply nth_app_l|]. split; auto. apply nth_app_l. rewrite nthu by auto.
        destruct (Nat.eqb_spec nn n); [contradiction|auto].
  - intros nn xx c' p'. rewrite !nth_snoc, upd_length, R1. destruct (Nat.eqb_spec nn (length h)) as [->|].
    + intros Q1 Q2 i. inversion Q1; subst. inversion Q2; subst. cbn. split; [discriminate|]. intro Eo. exfalso. apply Hf. eapply R7; eauto.
    + rewrite nthu by auto. destruct (Nat.eqb_spec nn n) as [->|]; [|eauto]. intros Q1 Q2 i. inversion Q1; subst xx. cbn. eauto.
  - intros i a Eo. apply in_app_iff. left. eauto.
Qed.

Lemma walk_ok : forall path h ns A ow n c p, rep h ns A ow -> nth_error A n = Some (c, p) ->
  exists h' n' a, walk h n path = Ok (h', n') /\ rep h' ns (A ++ a) ow /\ nth_error (A ++ a) n' = Some (c, p ++ path)
    /\ sameC h h' /\ Forall (fun x => exists r1 r2, r1 <> [] /\ path = r1 ++ r2 /\ x = (c, p ++ r1)) a.
Proof.
  induction path as [|k path IH]; intros h ns A ow n c p R Ea.
  - exists h, n, []. rewrite !app_nil_r. split; [reflexivity|]. split; auto. split; auto. split; [apply sameC_refl|constructor].
  - destruct (rep_node _ _ _ _ _ _ R Ea) as (x & Ex). cbn [walk]. rewrite (idx_ok _ _ _ Ex). cbn [obind].
    destruct (lookup k (x_elems x)) as [m|] eqn:El.
    + destruct (rp_elem _ _ _ _ R _ _ _ _ _ _ Ex Ea El) as [_ Em].
      destruct (IH h ns A ow m c (p ++ [k]) R Em) as (h' & n' & a & E & R' & E' & SC & HF).
      exists h', n', a. split; auto. split; auto. split; [rewrite <- (app_assoc p) in E'; exact E'|]. split; auto.
      eapply Forall_impl; [|exact HF]. intros z (r1 & r2 & _ & -> & ->). exists (k :: r1), r2. split; [discriminate|]. split; auto. now rewrite <- app_assoc.
    + pose proof (rep_child _ _ _ _ _ _ _ _ _ R Ex Ea El) as R1.
      destruct (IH _ ns (A ++ [(c, p ++ [k])]) ow (length h) c (p ++ [k]) R1) as (h' & n' & a & E & R' & E' & SC & HF).
      { rewrite nth_snoc, (rp_len _ _ _ _ R), Nat.eqb_refl. reflexivity. }
      exists h', n', ([(c, p ++ [k])] ++ a). split; auto. rewrite app_assoc. split; auto.
      split; [rewrite <- (app_assoc p) in E'; exact E'|]. split.
      * eapply sameC_trans; [|exact SC]. eapply sameC_trans; [|apply sameC_new].
        eapply sameC_upd; eauto.
      * constructor.
        -- exists [k], path. split; [discriminate|auto].
        -- eapply Forall_impl; [|exact HF]. intros z (r1 & r2 & _ & -> & ->). exists (k :: r1), r2. split; [discriminate|]. split; auto. now rewrite <- app_assoc.
Qed.

(** ** Steps that only grow the ghost lists *)
Record step_ (PA PO : addr -> Prop) (t : tr) (A ow : list addr) (t' : tr) (A' ow' : list addr) : Prop := {
  sp_rep : rep (t_heap t') (t_slot t') A' ow';
  sp_A : exists a, A' = A ++ a /\ Forall PA a;
  sp_ow : exists b, ow' = ow ++ b /\ Forall PO b;
  sp_same : sameC (t_heap t) (t_heap t');
  sp_ctx : t_ctx t' = t_ctx t;
  sp_tp : tpart t' = tpart t
}.
Notation repT t A ow := (rep (t_heap t) (t_slot t) A ow).

Lemma step_refl : forall PA PO t A ow, repT t A ow -> step_ PA PO t A ow t A ow.
Proof.
  intros PA PO t A ow R. constructor; auto using sameC_refl; exists []; rewrite app_nil_r; auto.
Qed.
Lemma step_trans : forall PA PO t A ow t1 A1 ow1 t2 A2 ow2,
  step_ PA PO t A ow t1 A1 ow1 -> step_ PA PO t1 A1 ow1 t2 A2 ow2 -> step_ PA PO t A ow t2 A2 ow2.
Proof.
  intros PA PO t A ow t1 A1 ow1 t2 A2 ow2 [R1 (a1 & -> & F1) (b1 & -> & G1) S1 C1 T1] [R2 (a2 & -> & F2) (b2 & -> & G2) S2 C2 T2].
  constructor; auto; try congruence.
  - exists (a1 ++ a2). rewrite app_assoc. split; auto. apply Forall_app. auto.
  - exists (b1 ++ b2). rewrite app_assoc. split; auto. apply Forall_app. auto.
  - eapply sameC_trans; eauto.
Qed.
Lemma step_weaken : forall (PA PO PA' PO' : addr -> Prop) t A ow t' A' ow', (forall a, PA a -> PA' a) -> (forall a, PO a -> PO' a) ->
  step_ PA PO t A ow t' A' ow' -> step_ PA' PO' t A ow t' A' ow'.
Proof.
  intros PA PO PA' PO' t A ow t' A' ow' H1 H2 [R (a & E & F) (b & E2 & G) S C T]. constructor; auto.
  - exists a. split; auto. eapply Forall_impl; eauto.
  - exists b. split; auto. eapply Forall_impl; eauto.
Qed.
Lemma step_nth : forall PA PO t A ow t' A' ow' n a, step_ PA PO t A ow t' A' ow' -> nth_error A n = Some a -> nth_error A' n = Some a.
Proof. intros PA PO t A ow t' A' ow' n a [_ (x & -> & _) _ _ _ _] E. now apply nth_app_l. Qed.
Lemma step_own : forall PA PO t A ow t' A' ow' n a, step_ PA PO t A ow t' A' ow' -> nth_error ow n = Some a -> nth_error ow' n = Some a.
Proof. intros PA PO t A ow t' A' ow' n a [_ _ (x & -> & _) _ _ _] E. now apply nth_app_l. Qed.

(** ** Contexts *)
Definition cx (root c : nat) : nat := if Nat.eqb root 0 then 0 else c.

Definition ctxOk (A : list addr) (t : tr) (c cv : nat) : Prop :=
  nth_error A 0 = Some (0, []) /\
  match t_ctx t with
  | [] => c = 0 /\ cv = 0
  | (v, n) :: _ => v = cv /\ cv <> 0 /\ c <> 0 /\ nth_error A n = Some (c, [])
  end.
Lemma ctxOk_step : forall PA PO t A ow t' A' ow' c cv, step_ PA PO t A ow t' A' ow' -> ctxOk A t c cv -> ctxOk A' t' c cv.
Proof.
  intros PA PO t A ow t' A' ow' c cv ST [H0 HC]. split; [eapply step_nth; eauto|]. rewrite (sp_ctx _ _ _ _ _ _ _ _ ST).
  destruct (t_ctx t) as [|[v n] r]; auto. destruct HC as (? & ? & ? & ?). repeat split; auto. eapply step_nth; eauto.
Qed.

Definition startOf (r : option nat) : nat := match r with Some n => n | None => 0 end.
Lemma resolve_ok : forall A t c cv root q, ctxOk A t c cv -> root = 0 \/ root = cv ->
  exists r, resolveRef t (root, q) = Ok (r, q) /\ nth_error A (startOf r) = Some (cx root c, [])
    /\ optnat_eqb r (currentContext t) = Nat.eqb root cv.
Proof.
  intros A t c cv root q [H0 HC] Hr. unfold resolveRef, getContext, currentContext, cx. cbn [fst snd].
  destruct (Nat.eqb_spec root 0) as [->|Hn].
  - exists None. split; [reflexivity|]. split; auto. destruct (t_ctx t) as [|[v n] r]; cbn.
    + destruct HC as [_ ->]. reflexivity.
    + destruct HC as (_ & Hv & _). destruct cv; [lia|reflexivity].
  - destruct Hr as [->| ->]; [contradiction|]. destruct (t_ctx t) as [|[v n] r]; [destruct HC; lia|].
    destruct HC as (-> & Hv & Hc & Ha). rewrite Nat.eqb_refl. exists (Some n). cbn. rewrite !Nat.eqb_refl. auto.
Qed.

Lemma getExec_ok : forall A t ow r c q, repT t A ow -> nth_error A (startOf r) = Some (c, []) ->
  exists t' n A', getExecNode t (r, q) = Ok (t', n)
    /\ step_ (fun x => exists r1 r2, r1 <> [] /\ q = r1 ++ r2 /\ x = (c, r1)) (fun _ => False) t A ow t' A' ow
    /\ nth_error A' n = Some (c, q).
Proof.
  intros A t ow r c q R Ea. unfold getExecNode. cbn [fst snd].
  destruct (walk_ok q _ _ _ _ _ _ _ R Ea) as (h' & n' & a & E & R' & E' & SC & HF).
  replace (match r with Some c0 => c0 | None => 0 end) with (startOf r) by reflexivity. rewrite E. cbn [obind].
  exists (setHeap t h'), n', (A ++ a). split; auto. split; auto. constructor; auto.
  - exists a. auto.
  - exists []. rewrite app_nil_r. auto.
Qed.

Lemma store_ok : forall A t ow n c q, repT t A ow -> nth_error A n = Some (c, q) ->
  exists t' i ow', storeExecNode t n = Ok (t', S i)
    /\ step_ (fun _ => False) (fun x => x = (c, q)) t A ow t' A ow' /\ nth_error ow' i = Some (c, q).
Proof.
  intros A t ow n c q R Ea. destruct (rep_node _ _ _ _ _ _ R Ea) as (x & Ex). unfold storeExecNode.
  rewrite (idx_ok _ _ _ Ex). cbn [obind]. pose proof (nth_lt _ _ _ Ex) as Hn. destruct (x_store x) as [|i] eqn:Es; cbn [Nat.eqb].
  - eexists _, (t_slot t), (ow ++ [(c, q)]). split; [reflexivity|].
    pose proof R as R0. destruct R as [R1 R2 R3 R4 R5 R6 R7]. split.
    + constructor; cbn [t_heap t_slot t_ctx].
      * constructor; auto.
        -- now rewrite upd_length.
        -- intros m z c' p k j. rewrite nthu by auto. destruct (Nat.eqb_spec m n) as [->|]; [|eauto].
           intros Ez. inversion Ez; subst z. cbn [x_elems setStore]. eauto.
        -- intros m c' p k Em. destruct (R4 m c' p k Em) as (nn & xx & Q1 & Q2 & Q3).
           exists nn. rewrite nthu by auto. destruct (Nat.eqb_spec nn n) as [->|].
           ++ exists (setStore x (S (t_slot t))). rewrite Ex in Q2. inversion Q2; subst xx. auto.
           ++ exists xx. auto.
        -- rewrite app_length. cbn. lia.
        -- intros m z c' p. rewrite nthu by auto. destruct (Nat.eqb_spec m n) as [->|Hne]; intros Ez Em i.
           ++ inversion Ez; subst z. cbn [x_store setStore]. rewrite nth_snoc, R5. rewrite Ea in Em. inversion Em; subst c' p.
              destruct (Nat.eqb_spec i (t_slot t)) as [->|Hi]; [split; auto|].
              split; [intro Q; inversion Q; lia|]. intro Q. apply (R6 _ _ _ _ Ex Ea) in Q. congruence.
           ++ rewrite nth_snoc, R5, (R6 _ _ _ _ Ez Em i). destruct (Nat.eqb_spec i (t_slot t)) as [->|]; [|tauto].
              split; intro Q.
              ** apply nth_lt in Q. lia.
              ** inversion Q; subst. exfalso. apply Hne. eapply rep_inj; eauto.
        -- intros i a. rewrite nth_snoc. destruct (Nat.eqb_spec i (length ow)); [|eauto]. intro Q. inversion Q; subst. eapply nth_error_In; eauto.
      * exists []. rewrite app_nil_r. auto.
      * exists [(c, q)]. auto.
      * eapply sameC_upd; eauto.
      * reflexivity.
      * reflexivity.
    + rewrite nth_snoc, R5, Nat.eqb_refl. reflexivity.
  - exists t, i, ow. split; [reflexivity|]. split.
    + apply step_refl. auto.
    + now apply (rp_store _ _ _ _ R _ _ _ _ Ex Ea).
Qed.

Lemma after_ok : forall A t ow n a, repT t A ow -> nth_error A n = Some a ->
  exists t', getAfterNode t n = Ok t' /\ step_ (fun _ => False) (fun _ => False) t A ow t' A ow /\ hasAfter (t_heap t') n.
Proof.
  intros A t ow n a R Ea. destruct (rep_node _ _ _ _ _ _ R Ea) as (x & Ex). unfold getAfterNode.
  rewrite (idx_ok _ _ _ Ex). cbn [obind]. pose proof (nth_lt _ _ _ Ex) as Hn. destruct (x_after x) as [af|] eqn:Eaf.
  - exists t. split; auto. split; [now apply step_refl|]. exists x, af. auto.
  - eexists. split; [reflexivity|]. split.
    + constructor; cbn [t_heap t_slot t_ctx setHeap]; auto.
      * eapply rep_upd; eauto.
      * exists []. rewrite app_nil_r. auto.
      * exists []. rewrite app_nil_r. auto.
      * eapply sameC_upd; [exact Ex| |congruence]. intros [|]; [unfold contents; cbn; now rewrite Eaf|reflexivity].
    + cbn [t_heap setHeap]. exists (setAfter x (Some (AfterN [] []))), (AfterN [] []). split; auto. rewrite nthu by auto. now rewrite Nat.eqb_refl.
Qed.

(** ** The base of an atom *)
Definition apart (P : list (list bytes)) (p : list bytes) : Prop :=
  exists q1 q2, In q1 P /\ In q2 P /\ forall k r1 r2, q1 = p ++ k :: r1 -> q2 <> p ++ k :: r2.
Definition baseSpec (P : list (list bytes)) (aft : bool) (p : list bytes) : Prop :=
  if aft then (forall q, In q P -> exists k r, q = p ++ k :: r) /\ (exists q1 q2, In q1 P /\ In q2 P /\ q1 <> q2) /\ apart P p
  else (forall q, In q P -> q = p) /\ (P = [] -> p = []).

Lemma longest_spec : forall l b, (In (longest b l) (b :: l)) /\ length b <= length (longest b l)
  /\ forall q, In q l -> length q <= length (longest b l).
Proof.
  induction l as [|p l IH]; intro b; cbn [longest]; [repeat split; auto; [now left|intros q []]|].
  destruct (Nat.ltb_spec (length b) (length p)).
  - destruct (IH p) as (H1 & H2 & H3). repeat split.
    + destruct H1 as [H1|H1]; [right; left; auto|right; right; auto].
    + lia.
    + intros q [->|Hq]; auto.
  - destruct (IH b) as (H1 & H2 & H3). repeat split.
    + destruct H1 as [H1|H1]; [left; auto|right; right; auto].
    + lia.
    + intros q [->|Hq]; auto. lia.
Qed.

Lemma idx_app_mid : forall {X} (l : list X) x r, idx (l ++ x :: r) (length l) = Ok x.
Proof. intros. unfold idx. rewrite nth_error_app2 by lia. now rewrite Nat.sub_diag. Qed.

Lemma agree_ok : forall pre b ps, (forall q, In q ps -> exists x r, q = pre ++ x :: r) ->
  exists bb, agreeAt (length pre) b ps = Ok bb
    /\ (bb = true -> forall q, In q ps -> exists r, q = pre ++ b :: r)
    /\ (bb = false -> exists q, In q ps /\ forall r, q <> pre ++ b :: r).
Proof.
  induction ps as [|q ps IH]; intro HP; cbn [agreeAt].
  - exists true. split; auto. split; [intros _ q []|discriminate].
  - destruct (HP q (or_introl eq_refl)) as (x & r & ->).
    replace (Nat.ltb (length (pre ++ x :: r)) (length pre)) with false
      by (symmetry; apply Nat.ltb_ge; rewrite app_length; lia).
    rewrite idx_app_mid. cbn [obind]. destruct (bytes_eqb x b) eqn:Eb.
    + apply bytes_eqb_eq in Eb. subst x. destruct IH as (bb & E & H1 & H2); [intros q Hq; apply HP; now right|].
      exists bb. split; auto. split.
      * intros T q [<-|Hq]; eauto.
      * intros F. destruct (H2 F) as (q & Hq & Hn). exists q. split; auto. now right.
    + exists false. split; auto. split; [discriminate|]. intros _. exists (pre ++ x :: r). split; [now left|].
      intros r' E. apply app_inv_head in E. inversion E; subst. rewrite bytes_eqb_refl in Eb. discriminate.
Qed.

Lemma common_ok : forall base pre ps, prefix_free ps -> In (pre ++ base) ps ->
  (forall q, In q ps -> exists r, q = pre ++ r) ->
  exists c, commonPath (length pre) base ps = Ok c /\ (exists r, base = c ++ r)
    /\ (forall q, In q ps -> exists r, q = (pre ++ c) ++ r)
    /\ (length c < length base -> (exists q1 q2, In q1 ps /\ In q2 ps /\ q1 <> q2) /\ apart ps (pre ++ c)).
Proof.
  induction base as [|b base IH]; intros pre ps PF HB HP; cbn [commonPath].
  - exists []. split; auto. split; [exists []; auto|]. split; [intros q Hq; rewrite app_nil_r; auto|cbn; lia].
  - assert (forall q, In q ps -> exists x r, q = pre ++ x :: r) as HX.
    { intros q Hq. destruct (HP q Hq) as ([|x r] & ->); eauto. exfalso. rewrite app_nil_r in Hq. eapply PF; eauto. }
    destruct (agree_ok pre b ps HX) as (bb & -> & H1 & H2). cbn [obind]. destruct bb.
    + destruct (IH (pre ++ [b]) ps PF) as (c & E & (r & Hr) & Hq & Hd).
      * now rewrite <- app_assoc.
      * intros q Hq. destruct (H1 eq_refl q Hq) as (r & ->). exists r. now rewrite <- app_assoc.
      * rewrite app_length in E. cbn [length] in E. rewrite Nat.add_1_r in E. rewrite E. cbn [obind].
        exists (b :: c). split; auto. split; [exists r; cbn; congruence|]. split.
        -- intros q Hi. destruct (Hq q Hi) as (r' & ->). exists r'. now rewrite <- !app_assoc.
        -- cbn [length]. intro Hl. replace (pre ++ b :: c) with ((pre ++ [b]) ++ c) by now rewrite <- app_assoc. apply Hd. lia.
    + exists []. split; auto. split; [now exists (b :: base)|]. split; [intros q Hq; rewrite app_nil_r; auto|].
      intros _. destruct (H2 eq_refl) as (q & Hq & Hn). split; exists q, (pre ++ b :: base); split; auto. split; auto.
      intros k r1 r2 E1 E2. rewrite app_nil_r in *. apply app_inv_head in E2. inversion E2; subst. now apply (Hn r1).
Qed.

Definition bnode (b : nref) : nat := match b with RNode n => n | RAfter n => n end.
Definition baft (b : nref) : bool := match b with RNode _ => false | RAfter _ => true end.

Lemma prefix_free_same : forall l m, (forall x, In x l <-> In x m) -> prefix_free m -> prefix_free l.
Proof. intros l m H HP p k r H1 H2. apply H in H1, H2. exact (HP _ _ _ H1 H2). Qed.
Lemma baseSpec_same : forall l m aft p, (forall x, In x l <-> In x m) -> baseSpec l aft p -> baseSpec m aft p.
Proof.
  intros l m aft p H HB. destruct aft; destruct HB as [H1 H2]; split.
  - intros q Hq. apply H1. now apply H.
  - destruct H2 as [(q1 & q2 & Q1 & Q2 & Q3) (q3 & q4 & Q4 & Q5 & Q6)]. split.
    + exists q1, q2. split; [|split]; auto; now apply H.
    + exists q3, q4. split; [|split]; auto; now apply H.
  - intros q Hq. apply H1. now apply H.
  - intros ->. apply H2. destruct l as [|x l]; auto. exfalso. apply (H x). now left.
Qed.

Lemma findBest_ok : forall A t c cv fs, ctxOk A t c cv -> (forall f, In f fs -> fst f = 0 \/ fst f = cv) ->
  prefix_free (map snd (filter (fun f => Nat.eqb (fst f) cv) fs)) ->
  exists refs p aft, resolveRefs t fs = Ok refs /\ findBestRoot t refs = Ok ((currentContext t, p), aft)
    /\ baseSpec (map snd (filter (fun f => Nat.eqb (fst f) cv) fs)) aft p.
Proof.
  intros A t c cv fs HC HR PF.
  assert (exists refs, resolveRefs t fs = Ok refs /\
    map snd (filter (fun r => optnat_eqb (fst r) (currentContext t)) refs) = map snd (filter (fun f => Nat.eqb (fst f) cv) fs))
    as (refs & E & EM).
  { clear PF. induction fs as [|[root q] fs IH]; [exists []; auto|].
    destruct (resolve_ok A t c cv root q HC) as (r & Er & _ & Eb); [apply (HR (root, q)); now left|].
    destruct IH as (refs & E & EM); [intros f Hf; apply HR; now right|].
    exists ((r, q) :: refs). cbn [resolveRefs]. rewrite Er. cbn [obind]. rewrite E. cbn [obind]. split; auto.
    cbn [filter fst]. rewrite Eb. destruct (Nat.eqb root cv); cbn [map snd]; congruence. }
  exists refs. unfold findBestRoot. cbv zeta. rewrite EM. set (P := map snd (filter (fun f => Nat.eqb (fst f) cv) fs)) in *.
  destruct P as [|p0 P'] eqn:EP.
  - exists [], false. repeat split; auto; intros q [].
  - destruct (longest_spec P' p0) as (L1 & L2 & L3). set (base := longest p0 P') in *.
    destruct (common_ok base [] (p0 :: P') PF) as (cc & Ec & (r & Hr) & Hq & Hd); auto.
    { intros q _. now exists q. }
    cbn [length app] in Ec. rewrite Ec. cbn [obind]. eexists _, _. split; auto. split; [reflexivity|].
    destruct (Nat.ltb_spec (length cc) (length base)) as [Hl|Hl].
    + split; [|split; [apply (Hd Hl)|apply (Hd Hl)]]. intros q Hi. destruct (Hq q Hi) as ([|x r'] & E'); cbn [app] in E'.
      * exfalso. rewrite app_nil_r in E'. subst q. destruct r as [|y r]; [rewrite app_nil_r in Hr; subst base; rewrite Hr in Hl; lia|].
        apply (PF cc y r Hi). rewrite <- Hr. exact L1.
      * eauto.
    + assert (cc = base) as ->.
      { destruct r; [now rewrite app_nil_r in Hr|]. rewrite Hr, app_length in Hl. cbn in Hl. lia. }
      split; [|discriminate]. intros q Hi. destruct (Hq q Hi) as (r' & E'). cbn [app] in E'.
      assert (length q <= length base) as X by (destruct Hi as [<-|Hi]; auto).
      rewrite E', app_length in X. destruct r'; [now rewrite app_nil_r in E'|cbn in X; lia].
Qed.

Lemma pick_ok : forall A t ow c cv e L, repT t A ow -> ctxOk A t c cv -> ~ has_unsupported e ->
  (forall f, mentions e [] f <-> In f L) -> (forall f, In f L -> fst f = 0 \/ fst f = cv) ->
  let P := map snd (filter (fun f => Nat.eqb (fst f) cv) L) in
  prefix_free P ->
  exists t' A' b p, pickBaseNode t e = Ok (t', b)
    /\ step_ (fun x => fst x = c /\ snd x <> [] /\ exists r, p = snd x ++ r) (fun _ => False) t A ow t' A' ow
    /\ nth_error A' (bnode b) = Some (c, p) /\ baseSpec P (baft b) p /\ (baft b = true -> hasAfter (t_heap t') (bnode b)).
Proof.
  intros A t ow c cv e L R HC HU HM HR P PF. unfold pickBaseNode.
  apply C18_defined_iff_supported in HU as (fs & Ef). rewrite Ef. cbn [obind].
  apply C18_exactly_the_mentioned_fields in Ef as [_ Ef].
  set (P' := map snd (filter (fun f => Nat.eqb (fst f) cv) fs)).
  assert (forall x, In x P' <-> In x P) as EP.
  { intro x. unfold P, P'. rewrite !in_map_iff. split; intros (f & E & Hf); exists f; rewrite filter_In in *; split; auto;
      destruct Hf; split; auto; [apply HM, Ef|apply Ef, HM]; auto. }
  destruct (findBest_ok A t c cv fs HC) as (refs & p & aft & E1 & E2 & BS).
  { intros f Hf. apply HR. apply HM. now apply Ef. }
  { eapply prefix_free_same; eauto. }
  rewrite E1. cbn [obind]. rewrite E2. cbn [obind].
  assert (nth_error A (startOf (currentContext t)) = Some (c, [])) as Es.
  { destruct HC as [H0 HC]. unfold currentContext. destruct (t_ctx t) as [|[v n] r]; cbn; [destruct HC as [-> _]; auto|tauto]. }
  destruct (getExec_ok A t ow (currentContext t) c p R Es) as (t1 & n & A1 & E3 & S1 & En). rewrite E3. cbn [obind].
  assert (step_ (fun x => fst x = c /\ snd x <> [] /\ exists r, p = snd x ++ r) (fun _ => False) t A ow t1 A1 ow) as S1'.
  { eapply step_weaken; [| |exact S1]; auto. intros a (r1 & r2 & Q0 & Q1 & ->). cbn. split; auto. split; auto. exists r2. exact Q1. }
  destruct aft.
  - destruct (after_ok A1 t1 ow n _ (sp_rep _ _ _ _ _ _ _ _ S1) En) as (t2 & E4 & S2 & HA). rewrite E4. cbn [obind].
    exists t2, A1, (RAfter n), p. split; auto. split; [|split; [auto|split; auto]].
    + eapply step_trans; [exact S1'|]. eapply step_weaken; [| |exact S2]; intros ? [].
    + cbn [baft]. eapply baseSpec_same; eauto.
  - exists t1, A1, (RNode n), p. split; auto. split; [|split; [auto|split; [|discriminate]]]; auto.
    eapply baseSpec_same; eauto.
Qed.

(** ** Operands *)
Fixpoint all2 {X Y} (P : X -> Y -> Prop) (l : list X) (m : list Y) : Prop :=
  match l, m with
  | [], [] => True
  | x :: r, y :: r' => P x y /\ all2 P r r'
  | _, _ => False
  end.

Section Place.
Variable o : oracles.

(** The reference an operand compiles to, in context [c], with owners [ow] of
    slots and, unless the base is an after-node, the path [base] of the base. *)
Definition fieldDesc {X} (ow : list addr) (c : nat) (base : option (list bytes)) (root : nat) (q : list bytes)
  (here : X) (slot : nat -> X) (d : X) : Prop :=
  (d = here /\ base = Some q /\ cx root c = c) \/
  (~ (base = Some q /\ cx root c = c) /\ exists i, d = slot (S i) /\ nth_error ow i = Some (cx root c, q)).

Fixpoint drefOf (ow : list addr) (c : nat) (base : option (list bytes)) (e : expr) (d : dref) : Prop :=
  match e with
  | XField root q => fieldDesc ow c base root q DActive DSlot d
  | XFunc n l => exists ds, d = DFunc n ds /\
      (fix go (l : list expr) (ds : list dref) : Prop :=
         match l, ds with
         | [], [] => True
         | x :: r, y :: r' => drefOf ow c base x y /\ go r r'
         | _, _ => False
         end) l ds
  | _ => exists v, constRef o e = Ok v /\ d = DVal v
  end.
Definition odrefOf (ow : list addr) (c : nat) (base : option (list bytes)) (e : expr) (d : option dref) : Prop :=
  match e with
  | XField root q => fieldDesc ow c base root q None (fun i => Some (DSlot i)) d
  | _ => exists d', d = Some d' /\ drefOf ow c base e d'
  end.
Lemma drefOf_func : forall ow c base n l d, drefOf ow c base (XFunc n l) d <-> exists ds, d = DFunc n ds /\ all2 (drefOf ow c base) l ds.
Proof.
  intros ow c base n l d. cbn [drefOf]. split; intros (ds & -> & H); exists ds; split; auto; revert ds H;
    (induction l as [|x l IHl]; intros [|y ds]; cbn; auto; intros [? ?]; split; auto; apply IHl; auto).
Qed.

Lemma fieldDesc_ext : forall X ow ow1 c base root q (here : X) slot d, fieldDesc ow c base root q here slot d -> fieldDesc (ow ++ ow1) c base root q here slot d.
Proof.
  intros X ow ow1 c base root q here slot d [H|(H1 & i & H2 & H3)]; [now left|right]. split; auto. exists i. split; auto. now apply nth_app_l.
Qed.
Lemma drefOf_ext : forall ow ow1 c base e d, drefOf ow c base e d -> drefOf (ow ++ ow1) c base e d.
Proof.
  intros ow ow1 c base. induction e as [| |g|sa|sa|sa|a IH|l IH|l IH|r p|n l IH|m v i s IHi IHs|a IH|a IH|k l r IHl IHr] using expr_ind';
    intros d; try (cbn [drefOf]; auto; fail).
  - cbn [drefOf]. apply fieldDesc_ext.
  - rewrite !drefOf_func. intros (ds & -> & H). exists ds. split; auto. revert ds H.
    induction IH as [|x r Hx Hr IHr]; destruct ds; cbn; auto. intros [H1 H2]. auto.
Qed.
Lemma odrefOf_ext : forall ow ow1 c base e d, odrefOf ow c base e d -> odrefOf (ow ++ ow1) c base e d.
Proof.
  intros ow ow1 c base e d H. destruct e; cbn [odrefOf] in *; try (destruct H as (d' & -> & H); exists d'; split; auto; now apply drefOf_ext).
  now apply fieldDesc_ext.
Qed.

Definition baseOf (aft : bool) (p : list bytes) : option (list bytes) := if aft then None else Some p.
Definition PAe (c : nat) (e : expr) (x : addr) : Prop := exists root q r, In (root, q) (frefs e) /\ fst x = cx root c /\ q = snd x ++ r.
Definition POe (c : nat) (base : option (list bytes)) (e : expr) (x : addr) : Prop :=
  exists root q, In (root, q) (frefs e) /\ x = (cx root c, q) /\ ~ (base = Some q /\ cx root c = c).

Lemma path_dec : forall p q : list bytes, p = q \/ p <> q.
Proof. intros p q. destruct (list_eq_dec (list_eq_dec N.eq_dec) p q); auto. Qed.

Lemma field_ok : forall X (here : X) (slot : nat -> X) A t ow c cv root q b p, repT t A ow -> ctxOk A t c cv ->
  root = 0 \/ root = cv -> nth_error A (bnode b) = Some (c, p) ->
  exists t' A' ow' d,
    (do r <- resolveRef t (root, q);
     do (t1, n) <- getExecNode t r;
     if isBase b n then Ok (t1, here)
     else do (t2, s) <- storeExecNode t1 n; Ok (t2, slot s)) = Ok (t', d)
    /\ step_ (PAe c (XField root q)) (POe c (baseOf (baft b) p) (XField root q)) t A ow t' A' ow'
    /\ fieldDesc ow' c (baseOf (baft b) p) root q here slot d.
Proof.
  intros X here slot A t ow c cv root q b p R HC Hr Eb.
  destruct (resolve_ok A t c cv root q HC Hr) as (r & Er & Es & _). rewrite Er. cbn [obind].
  destruct (getExec_ok A t ow r (cx root c) q R Es) as (t1 & n & A1 & E1 & S1 & En). rewrite E1. cbn [obind].
  assert (step_ (PAe c (XField root q)) (POe c (baseOf (baft b) p) (XField root q)) t A ow t1 A1 ow) as S1'.
  { eapply step_weaken; [| |exact S1]; [|intros ? []]. intros a (r1 & r2 & _ & Q1 & ->).
    exists root, q, r2. split; [now left|]. auto. }
  assert (isBase b n = true <-> baseOf (baft b) p = Some q /\ cx root c = c) as HB.
  { pose proof (step_nth _ _ _ _ _ _ _ _ _ _ S1 Eb) as Eb1. destruct b as [m|m]; cbn in *; [|split; [discriminate|intros [? _]; discriminate]].
    rewrite Nat.eqb_eq. split.
    - intros ->. rewrite Eb1 in En. inversion En. rewrite <- !H0. auto.
    - intros [E2 E3]. inversion E2; subst p. rewrite E3 in En. eapply rep_inj; [apply S1|eauto|eauto]. }
  destruct (isBase b n) eqn:EB.
  - exists t1, A1, ow, here. split; auto. split; auto. left. split; auto. now apply HB.
  - assert (~ (baseOf (baft b) p = Some q /\ cx root c = c)) as HN by (intro Q; apply HB in Q; discriminate).
    destruct (store_ok A1 t1 ow n _ _ (sp_rep _ _ _ _ _ _ _ _ S1) En) as (t2 & i & ow2 & E2 & S2 & Eo). rewrite E2. cbn [obind].
    exists t2, A1, ow2, (slot (S i)). split; auto. split.
    + eapply step_trans; [exact S1'|]. eapply step_weaken; [| |exact S2]; [intros ? []|]. intros a ->.
      exists root, q. split; [now left|]. auto.
    + right. split; auto. exists i. auto.
Qed.

Lemma dataRef_ok : forall e A t ow c cv b p, repT t A ow -> ctxOk A t c cv -> operandOk o cv e -> nth_error A (bnode b) = Some (c, p) ->
  exists t' A' ow' d, dataRefIn o e b t = Ok (t', d)
    /\ step_ (PAe c e) (POe c (baseOf (baft b) p) e) t A ow t' A' ow' /\ drefOf ow' c (baseOf (baft b) p) e d.
Proof.
  induction e as [| |g|sa|sa|sa|a IH|l IH|l IH|r q|n l IH|m v i s IHi IHs|a IH|a IH|k l r IHl IHr] using expr_ind';
    intros A t ow c cv b p R HC HO Eb; try (destruct HO; fail);
    try (destruct HO as (v & Ev); exists t, A, ow, (DVal v); cbn [dataRefIn]; rewrite Ev; cbn [obind]; split; auto; split;
         [now apply step_refl|exists v; auto]).
  - cbn [dataRefIn drefOf]. eapply field_ok; eauto.
  - rewrite dataRefIn_func. apply operandOk_func in HO.
    assert (exists t' A' ow' ds, dataRefList o l b t = Ok (t', ds)
      /\ step_ (PAe c (XFunc n l)) (POe c (baseOf (baft b) p) (XFunc n l)) t A ow t' A' ow' /\ all2 (drefOf ow' c (baseOf (baft b) p)) l ds)
      as (t' & A' & ow' & ds & E & S & HD).
    2:{ rewrite E. cbn [obind]. exists t', A', ow', (DFunc n ds). split; auto. split; auto. apply drefOf_func. eauto. }
    revert A t ow R HC Eb HO. induction IH as [|x r Hx Hr IHr]; intros A t ow R HC Eb HO.
    + exists t, A, ow, []. cbn. split; auto. split; auto. now apply step_refl.
    + destruct HO as [HO1 HO2]. destruct (Hx A t ow c cv b p R HC HO1 Eb) as (t1 & A1 & ow1 & d & E1 & S1 & D1).
      destruct (IHr A1 t1 ow1 (sp_rep _ _ _ _ _ _ _ _ S1) (ctxOk_step _ _ _ _ _ _ _ _ _ _ S1 HC) (step_nth _ _ _ _ _ _ _ _ _ _ S1 Eb) HO2)
        as (t2 & A2 & ow2 & ds & E2 & S2 & D2).
      cbn [dataRefList]. rewrite E1. cbn [obind]. rewrite E2. cbn [obind]. exists t2, A2, ow2, (d :: ds). split; auto. split.
      * eapply step_trans.
        -- eapply step_weaken; [| |exact S1].
           ++ intros a (ro & q & r' & H1 & H2). exists ro, q, r'. split; auto. cbn [frefs flat_map]. apply in_app_iff. now left.
           ++ intros a (ro & q & H1 & H2). exists ro, q. split; auto. cbn [frefs flat_map]. apply in_app_iff. now left.
        -- eapply step_weaken; [| |exact S2].
           ++ intros a (ro & q & r' & H1 & H2). exists ro, q, r'. split; auto. cbn [frefs flat_map]. apply in_app_iff. now right.
           ++ intros a (ro & q & H1 & H2). exists ro, q. split; auto. cbn [frefs flat_map]. apply in_app_iff. now right.
      * cbn. split; auto. destruct (sp_ow _ _ _ _ _ _ _ _ S2) as (bb & -> & _). now apply drefOf_ext.
Qed.

Lemma makeRef_ok : forall e A t ow c cv b p, repT t A ow -> ctxOk A t c cv -> operandOk o cv e -> nth_error A (bnode b) = Some (c, p) ->
  exists t' A' ow' d, makeDataRef o e b t = Ok (t', d)
    /\ step_ (PAe c e) (POe c (baseOf (baft b) p) e) t A ow t' A' ow' /\ odrefOf ow' c (baseOf (baft b) p) e d.
Proof.
  intros e A t ow c cv b p R HC HO Eb.
  assert ((forall r q, e <> XField r q) -> exists t' A' ow' d, (do (t1, d) <- dataRefIn o e b t; Ok (t1, Some d)) = Ok (t', d)
    /\ step_ (PAe c e) (POe c (baseOf (baft b) p) e) t A ow t' A' ow' /\ odrefOf ow' c (baseOf (baft b) p) e d) as X.
  { intro HN. destruct (dataRef_ok e A t ow c cv b p R HC HO Eb) as (t' & A' & ow' & d & E & S & D). rewrite E. cbn [obind].
    exists t', A', ow', (Some d). split; auto. split; auto. destruct e; try (exists d; auto; fail). now destruct (HN root path). }
  destruct e; try (apply X; discriminate). cbn [makeDataRef odrefOf]. eapply field_ok; eauto.
Qed.

(** ** Sites: the atoms and loops of an expression, with context and bucket *)
Inductive site := Site (c k : nat) (e : expr).
Fixpoint sites (c k : nat) (e : expr) : list site :=
  match e with
  | XNot a => sites c (S k) a
  | XAnd l | XOr l =>
      (fix go (k : nat) (l : list expr) : list site :=
         match l with
         | [] => []
         | [a] => sites c k a
         | a :: r => sites c (S k) a ++ go (S k + fsize (structure a)) r
         end) k l
  | XExists _ => [Site c k e]
  | XNotExists a => [Site c (S k) (XExists a)]
  | XCmp CNe l r => [Site c (S k) (XCmp CEq l r)]
  | XCmp _ _ _ => [Site c k e]
  | XLoop _ _ _ s => Site c k e :: sites (S k) (S k) s
  | _ => []
  end.
Fixpoint sitesChain (c k : nat) (l : list expr) : list site :=
  match l with
  | [] => []
  | [a] => sites c k a
  | a :: r => sites c (S k) a ++ sitesChain c (S k + fsize (structure a)) r
  end.
Lemma sites_and : forall l c k, sites c k (XAnd l) = sitesChain c k l.
Proof.
  intros l c. cbn [sites]. induction l as [|a [|b r] IH]; intro k; auto.
  change (sitesChain c k (a :: b :: r)) with (sites c (S k) a ++ sitesChain c (S k + fsize (structure a)) (b :: r)).
  now rewrite <- IH.
Qed.
Lemma sites_or : forall l c k, sites c k (XOr l) = sitesChain c k l.
Proof. exact sites_and. Qed.

Definition cmpOp (k : cmpk) : option optype :=
  match k with
  | CEq => Some OpEquals | CNe => None | CLt => Some OpLessThan | CLe => Some OpLessEquals
  | CGt => Some OpGreaterThan | CGe => Some OpGreaterEquals | CLike => Some OpMatches
  end.

(** The paths of [e] below the current context. *)
Definition curp (c : nat) (e : expr) : list (list bytes) := map snd (filter (fun f => Nat.eqb (cx (fst f) c) c) (frefs e)).
Definition loopP (c : nat) (q : list bytes) (s : expr) : list (list bytes) := q :: (if Nat.eqb c 0 then pathsOf 0 s else []).

(** Item [it] of node [n] is what the site compiles to. *)
Definition placed (A ow : list addr) (s : site) (n : nat) (aft : bool) (it : item) : Prop :=
  match s with
  | Site c k e => exists p, nth_error A n = Some (c, p) /\
      match e with
      | XExists a => baseSpec (curp c e) aft p /\ exists d, odrefOf ow c (baseOf aft p) a d /\ it = IOp (OpN k OpExists d None)
      | XCmp kk l r => baseSpec (curp c e) aft p /\ exists ty dl dr, cmpOp kk = Some ty /\ odrefOf ow c (baseOf aft p) l dl
          /\ odrefOf ow c (baseOf aft p) r dr /\ it = IOp (OpN k ty dl dr)
      | XLoop m v (XField root q) sub => cx root c = c /\ baseSpec (loopP c q sub) aft p /\
          exists n' tg, it = ILoop (LoopN (S k) m tg n') /\ nth_error A n' = Some (S k, []) /\ n < n'
            /\ if aft then exists i, tg = Some (DSlot (S i)) /\ nth_error ow i = Some (c, q) else tg = None /\ p = q
      | _ => False
      end
  end.

(** Why a node address or a slot owner exists. *)
Definition asksA (s : site) (x : addr) : Prop :=
  match s with
  | Site c k (XLoop _ _ (XField root q) _) => (fst x = c /\ exists r, q = snd x ++ r) \/ x = (S k, [])
  | Site c k e => PAe c e x
  end.
Definition asksO (s : site) (x : addr) : Prop :=
  match s with
  | Site c k (XLoop _ _ (XField root q) sub) => x = (c, q) /\ two (loopP c q sub)
  | Site c k e => exists root q, In (root, q) (frefs e) /\ x = (cx root c, q) /\ (cx root c = c -> two (curp c e))
  end.

Lemma placed_ext : forall A A1 ow ow1 s n aft it, placed A ow s n aft it -> placed (A ++ A1) (ow ++ ow1) s n aft it.
Proof.
  intros A A1 ow ow1 [c k e] n aft it (p & Ep & H). exists p. split; [now apply nth_app_l|].
  destruct e; auto.
  - destruct e1; auto. destruct H as (H0 & H1 & n' & tg & H2 & H3 & H4 & H5). split; auto. split; auto. exists n', tg.
    split; auto. split; [now apply nth_app_l|]. split; auto. destruct aft; auto. destruct H5 as (i & H5 & H6). exists i. split; auto. now apply nth_app_l.
  - destruct H as (H1 & d & H2 & H3). split; auto. exists d. split; auto. now apply odrefOf_ext.
  - destruct H as (H1 & ty & dl & dr & H2 & H3 & H4 & H5). split; auto. exists ty, dl, dr. auto using odrefOf_ext.
Qed.

Record grown (S : list site) (t : tr) (A ow : list addr) (t' : tr) (A' ow' : list addr) : Prop := {
  g_rep : repT t' A' ow';
  g_A : exists a, A' = A ++ a /\ Forall (fun x => exists s, In s S /\ asksA s x) a;
  g_ow : exists b, ow' = ow ++ b /\ Forall (fun x => exists s, In s S /\ asksO s x) b;
  g_ctx : t_ctx t' = t_ctx t;
  g_mono : forall n aft it, itemIn (t_heap t) n aft it -> itemIn (t_heap t') n aft it;
  g_items : forall n aft it, itemIn (t_heap t') n aft it ->
    itemIn (t_heap t) n aft it \/ exists s, In s S /\ placed A' ow' s n aft it;
  g_sites : forall s, In s S -> exists n aft it, itemIn (t_heap t') n aft it /\ placed A' ow' s n aft it
}.

Lemma grown_refl : forall t A ow, repT t A ow -> grown [] t A ow t A ow.
Proof. intros t A ow R. constructor; auto; try (exists []; rewrite app_nil_r; auto). intros s []. Qed.
Lemma grown_trans : forall Sa Sb t A ow t1 A1 ow1 t2 A2 ow2, grown Sa t A ow t1 A1 ow1 -> grown Sb t1 A1 ow1 t2 A2 ow2 ->
  grown (Sa ++ Sb) t A ow t2 A2 ow2.
Proof.
  intros Sa Sb t A ow t1 A1 ow1 t2 A2 ow2 [R1 (a1 & -> & F1) (b1 & -> & G1) C1 M1 I1 J1] [R2 (a2 & -> & F2) (b2 & -> & G2) C2 M2 I2 J2].
  constructor; auto; try congruence.
  - exists (a1 ++ a2). rewrite app_assoc. split; auto. apply Forall_app. split.
    + eapply Forall_impl; [|exact F1]. intros x (s & H1 & H2). exists s. rewrite in_app_iff. auto.
    + eapply Forall_impl; [|exact F2]. intros x (s & H1 & H2). exists s. rewrite in_app_iff. auto.
  - exists (b1 ++ b2). rewrite app_assoc. split; auto. apply Forall_app. split.
    + eapply Forall_impl; [|exact G1]. intros x (s & H1 & H2). exists s. rewrite in_app_iff. auto.
    + eapply Forall_impl; [|exact G2]. intros x (s & H1 & H2). exists s. rewrite in_app_iff. auto.
  - intros n aft it H. destruct (I2 _ _ _ H) as [H1|(s & H1 & H2)].
    + destruct (I1 _ _ _ H1) as [H2|(s & H2 & H3)]; auto. right. exists s. rewrite in_app_iff. split; auto. now apply placed_ext.
    + right. exists s. rewrite in_app_iff. auto.
  - intros s HS. apply in_app_iff in HS as [HS|HS]; [|auto]. destruct (J1 s HS) as (n & aft & it & H1 & H2).
    exists n, aft, it. split; auto. now apply placed_ext.
Qed.
(** The tree part and the number of buckets do not matter. *)
Lemma grown_change : forall S t A ow t' A' ow' u u', grown S t A ow t' A' ow' ->
  t_heap u = t_heap t -> t_heap u' = t_heap t' -> t_slot u' = t_slot t' -> t_ctx u' = t_ctx u ->
  grown S u A ow u' A' ow'.
Proof.
  intros S t A ow t' A' ow' u u' [R HA HO C M I J] E1 E2 E3 E4. constructor; auto; rewrite ?E1, ?E2, ?E3, ?E4; auto.
Qed.

(** ** Atoms *)
Lemma addOp_ok : forall t A ow b op a, repT t A ow -> nth_error A (bnode b) = Some a -> (baft b = true -> hasAfter (t_heap t) (bnode b)) ->
  exists t', addOp t b op = Ok t' /\ repT t' A ow /\ t_ctx t' = t_ctx t /\ tpart t' = tpart t
    /\ forall n aft it, itemIn (t_heap t') n aft it <-> itemIn (t_heap t) n aft it \/ (n = bnode b /\ aft = baft b /\ it = IOp op).
Proof.
  intros t A ow b op a R Eb HA. destruct (rep_node _ _ _ _ _ _ R Eb) as (x & Ex). pose proof (nth_lt _ _ _ Ex) as Hn.
  assert (forall y, x_elems y = x_elems x -> x_store y = x_store x ->
    (forall aft it, In it (contents y aft) <-> In it (contents x aft) \/ (aft = baft b /\ it = IOp op)) ->
    let t' := setHeap t (upd (t_heap t) (bnode b) y) in repT t' A ow /\ t_ctx t' = t_ctx t /\ tpart t' = tpart t
    /\ forall n aft it, itemIn (t_heap t') n aft it <-> itemIn (t_heap t) n aft it \/ (n = bnode b /\ aft = baft b /\ it = IOp op)) as X.
  { intros y E1 E2 HC t'. split; [eapply rep_upd; eauto|]. split; auto. split; auto. intros n aft it. unfold itemIn, t'. cbn [t_heap setHeap].
    rewrite nthu by auto. destruct (Nat.eqb_spec n (bnode b)) as [->|Hne].
    - split.
      + intros (z & Ez & Hz). inversion Ez; subst z. apply HC in Hz as [Hz|Hz]; [left; eauto|right; tauto].
      + intros [(z & Ez & Hz)|(_ & Hz)]; exists y; (split; auto); apply HC; [left|right; auto]. rewrite Ex in Ez. now inversion Ez.
    - split; [now left|]. intros [H|(H & _)]; [auto|contradiction]. }
  destruct b as [m|m]; cbn [bnode baft addOp] in *; rewrite (idx_ok _ _ _ Ex); cbn [obind].
  - eexists. split; [reflexivity|]. apply (X (setOps x (x_ops x ++ [op]))); auto. intros [|] it.
    + cbn. split; [now left|]. intros [H|[H _]]; auto. discriminate.
    + unfold contents. cbn. rewrite map_app, !in_app_iff. cbn. split; [|intuition].
      intros [[H|[H|[]]]|H]; auto.
  - destruct (HA eq_refl) as (z & af & Ez & Ea). rewrite Ex in Ez. inversion Ez; subst z. rewrite Ea.
    eexists. split; [reflexivity|]. apply (X (setAfter x (Some (AfterN (af_ops af ++ [op]) (af_loops af))))); auto. intros [|] it.
    + unfold contents. cbn. rewrite Ea, map_app, !in_app_iff. cbn. split; [|intuition].
      intros [[H|[H|[]]]|H]; auto.
    + cbn. split; [now left|]. intros [H|[H _]]; auto. discriminate.
Qed.
Lemma addLoop_ok : forall t A ow b l a, repT t A ow -> nth_error A (bnode b) = Some a -> (baft b = true -> hasAfter (t_heap t) (bnode b)) ->
  (if baft b then exists s, lp_target l = Some (DSlot s) else lp_target l = None) ->
  exists t', addLoop t b l = Ok t' /\ repT t' A ow /\ t_ctx t' = t_ctx t /\ tpart t' = tpart t /\ length (t_heap t') = length (t_heap t)
    /\ forall n aft it, itemIn (t_heap t') n aft it <-> itemIn (t_heap t) n aft it \/ (n = bnode b /\ aft = baft b /\ it = ILoop l).
Proof.
  intros t A ow b l a R Eb HA HT. destruct (rep_node _ _ _ _ _ _ R Eb) as (x & Ex). pose proof (nth_lt _ _ _ Ex) as Hn.
  assert (forall y, x_elems y = x_elems x -> x_store y = x_store x ->
    (forall aft it, In it (contents y aft) <-> In it (contents x aft) \/ (aft = baft b /\ it = ILoop l)) ->
    let t' := setHeap t (upd (t_heap t) (bnode b) y) in repT t' A ow /\ t_ctx t' = t_ctx t /\ tpart t' = tpart t /\ length (t_heap t') = length (t_heap t)
    /\ forall n aft it, itemIn (t_heap t') n aft it <-> itemIn (t_heap t) n aft it \/ (n = bnode b /\ aft = baft b /\ it = ILoop l)) as X.
  { intros y E1 E2 HC t'. split; [eapply rep_upd; eauto|]. split; auto. split; auto. split; [apply upd_length|].
    intros n aft it. unfold itemIn, t'. cbn [t_heap setHeap].
    rewrite nthu by auto. destruct (Nat.eqb_spec n (bnode b)) as [->|Hne].
    - split.
      + intros (z & Ez & Hz). inversion Ez; subst z. apply HC in Hz as [Hz|Hz]; [left; eauto|right; tauto].
      + intros [(z & Ez & Hz)|(_ & Hz)]; exists y; (split; auto); apply HC; [left|right; auto]. rewrite Ex in Ez. now inversion Ez.
    - split; [now left|]. intros [H|(H & _)]; [auto|contradiction]. }
  destruct b as [m|m]; cbn [bnode baft addLoop] in *.
  - rewrite HT, (idx_ok _ _ _ Ex); cbn [obind].
    eexists. split; [reflexivity|]. apply (X (setLoops x (x_loops x ++ [l]))); auto. intros [|] it.
    + cbn. split; [now left|]. intros [H|[H _]]; auto. discriminate.
    + unfold contents. cbn. rewrite map_app, !in_app_iff. cbn. split; [|intuition].
      intros [H|[H|[H|[]]]]; auto.
  - destruct HT as (s & HT). rewrite HT, (idx_ok _ _ _ Ex); cbn [obind].
    destruct (HA eq_refl) as (z & af & Ez & Ea). rewrite Ex in Ez. inversion Ez; subst z. rewrite Ea.
    eexists. split; [reflexivity|]. apply (X (setAfter x (Some (AfterN (af_ops af) (af_loops af ++ [l]))))); auto. intros [|] it.
    + unfold contents. cbn. rewrite Ea, map_app, !in_app_iff. cbn. split; [|intuition].
      intros [H|[H|[H|[]]]]; auto.
    + cbn. split; [now left|]. intros [H|[H _]]; auto. discriminate.
Qed.

(** ** Which fields are mentioned *)
Lemma in_flat : forall l f, In f (flat_map frefs l) <-> exists x, In x l /\ In f (frefs x).
Proof. intros. apply in_flat_map. Qed.

Lemma allOp_in : forall cv l x, allOp o cv l -> In x l -> operandOk o cv x.
Proof. induction l as [|y l IH]; intros x H HI; [destruct HI|]. destruct H as [H1 H2]. destruct HI as [->|HI]; auto. Qed.
Lemma allC_in : forall cv l x, allC o cv l -> In x l -> compilable o cv x.
Proof. induction l as [|y l IH]; intros x H HI; [destruct HI|]. destruct H as [H1 H2]. destruct HI as [->|HI]; auto. Qed.

Lemma operand_mentions : forall e cv f vs, operandOk o cv e ->
  mentions e vs f <-> In f (frefs e) /\ ~ In (fst f) vs.
Proof.
  intros e cv f vs. induction e as [| |g|sa|sa|sa|a IH|l IH|l IH|r q|n l IH|m v i s IHi IHs|a IH|a IH|k l r IHl IHr] using expr_ind';
    intro HO; try (destruct HO; fail); try solve [cbn; split; [intro H; inversion H|intros [[] _]]].
  - cbn. split.
    + intro H. inversion H; subst. auto.
    + intros [[<-|[]] H]. now constructor.
  - apply operandOk_func in HO. cbn [frefs]. rewrite in_flat. rewrite Forall_forall in IH. split.
    + intro H. inversion H; subst. match goal with HI : In ?y l, HM : mentions ?y _ _ |- _ => apply (IH y HI (allOp_in _ _ _ HO HI)) in HM as [? ?] end.
      split; eauto.
    + intros [(x & H1 & H2) H3]. apply men_func with x; auto. apply IH; eauto using allOp_in.
Qed.
Lemma operand_supported : forall e cv, operandOk o cv e -> ~ has_unsupported e.
Proof.
  intros e cv. induction e as [| |g|sa|sa|sa|a IH|l IH|l IH|r q|n l IH|m v i s IHi IHs|a IH|a IH|k l r IHl IHr] using expr_ind';
    intro HO; try (destruct HO; fail); try (intro H; inversion H; fail).
  apply operandOk_func in HO. rewrite Forall_forall in IH. intro H. inversion H; subst. eapply IH; eauto using allOp_in.
Qed.
Lemma operand_roots : forall e cv f, operandOk o cv e -> In f (frefs e) -> fst f = 0 \/ fst f = cv.
Proof.
  intros e cv f. induction e as [| |g|sa|sa|sa|a IH|l IH|l IH|r q|n l IH|m v i s IHi IHs|a IH|a IH|k l r IHl IHr] using expr_ind';
    intros HO HI; try (destruct HO; fail); try (destruct HI; fail).
  - destruct HI as [<-|[]]. exact HO.
  - apply operandOk_func in HO. rewrite Forall_forall in IH. cbn [frefs] in HI. rewrite in_flat in HI. destruct HI as (x & H1 & H2).
    eapply IH; eauto using allOp_in.
Qed.

Lemma body_mentions : forall e cv vs f, cv <> 0 -> compilable o cv e -> In cv vs -> ~ In 0 vs ->
  mentions e vs f <-> In f (frefs e) /\ fst f = 0.
Proof.
  assert (forall e cv vs f, cv <> 0 -> operandOk o cv e -> In cv vs -> ~ In 0 vs -> mentions e vs f <-> In f (frefs e) /\ fst f = 0) as HOp.
  { intros e cv vs f Hc HO H1 H2. rewrite (operand_mentions e cv f vs HO). split; intros [H3 H4]; split; auto.
    - destruct (operand_roots _ _ _ HO H3) as [->| E]; auto. exfalso. congruence.
    - now rewrite H4. }
  induction e as [| |g|sa|sa|sa|a IH|l IH|l IH|r q|n l IH|m v i s IHi IHs|a IH|a IH|k l r IHl IHr] using expr_ind';
    intros cv vs f Hc HC H1 H2; try solve [cbn in HC; contradiction].
  - cbn [frefs]. rewrite <- (IH cv vs f Hc HC H1 H2). split; intro H; [inversion H; auto|now constructor].
  - apply compilable_and in HC as [_ HC]. cbn [frefs]. rewrite in_flat. rewrite Forall_forall in IH. split.
    + intro H. inversion H; subst. match goal with HI : In ?y l, HM : mentions ?y _ _ |- _ => apply (IH y HI cv vs f Hc (allC_in _ _ _ HC HI) H1 H2) in HM as [? ?] end.
      split; eauto.
    + intros [(x & H3 & H4) H5]. apply men_and with x; auto. apply (IH x H3 cv); eauto using allC_in.
  - apply compilable_or in HC as [_ HC]. cbn [frefs]. rewrite in_flat. rewrite Forall_forall in IH. split.
    + intro H. inversion H; subst. match goal with HI : In ?y l, HM : mentions ?y _ _ |- _ => apply (IH y HI cv vs f Hc (allC_in _ _ _ HC HI) H1 H2) in HM as [? ?] end.
      split; eauto.
    + intros [(x & H3 & H4) H5]. apply men_or with x; auto. apply (IH x H3 cv); eauto using allC_in.
  - destruct HC as (Hv & (q & -> & _) & HC). cbn [frefs]. rewrite in_app_iff.
    assert (mentions s (v :: vs) f <-> In f (frefs s) /\ fst f = 0) as X.
    { apply (IHs v); auto; [now left|]. intros [E|E]; auto. }
    split.
    + intro H. inversion H; subst.
      * match goal with HM : mentions (XField _ _) _ _ |- _ => inversion HM; subst end. contradiction.
      * match goal with HM : mentions s _ _ |- _ => apply X in HM as [Q1 Q2] end. auto.
    + intros [[H3|H3] H4].
      * destruct H3 as [<-|[]]. cbn in H4. contradiction.
      * apply men_body. apply X. auto.
  - destruct HC as [HC _]. cbn [frefs]. rewrite <- (HOp a cv vs f Hc HC H1 H2). split; intro H; [inversion H; auto|now constructor].
  - destruct HC as [HC _]. contradiction.
  - destruct HC as (HL & HR & _). cbn [frefs]. rewrite in_app_iff.
    pose proof (HOp l cv vs f Hc HL H1 H2) as X. pose proof (HOp r cv vs f Hc HR H1 H2) as Y. split.
    + intro H. inversion H; subst; match goal with HM : mentions ?y _ _ |- _ => (apply X in HM as [? ?] || apply Y in HM as [? ?]) end; auto.
    + intros [[H3|H3] H4]; [apply men_l, X|apply men_r, Y]; auto.
Qed.
Lemma body_supported : forall e cv, cv <> 0 -> compilable o cv e -> ~ has_unsupported e.
Proof.
  induction e as [| |g|sa|sa|sa|a IH|l IH|l IH|r q|n l IH|m v i s IHi IHs|a IH|a IH|k l r IHl IHr] using expr_ind';
    intros cv Hc HC HU; inversion HU; subst; try (cbn in HC; tauto).
  - eapply IH; eauto.
  - apply compilable_and in HC as [_ HC]. rewrite Forall_forall in IH. eapply IH; eauto using allC_in.
  - apply compilable_or in HC as [_ HC]. rewrite Forall_forall in IH. eapply IH; eauto using allC_in.
  - destruct HC as (Hv & (q & -> & _) & HC). inversion H0.
  - destruct HC as (Hv & (q & -> & _) & HC). eapply IHs; eauto.
  - destruct HC as [HC _]. eapply operand_supported; eauto.
  - destruct HC as (HL & HR & _). eapply operand_supported; [exact HL|]; eauto.
  - destruct HC as (HL & HR & _). eapply operand_supported; [exact HR|]; eauto.
Qed.

(** ** Placing expressions *)
Definition bounded (A : list addr) (t : tr) : Prop := Forall (fun a => fst a < t_bucket t) A.

Lemma ctx_cases : forall A t c cv, ctxOk A t c cv -> (c = 0 /\ cv = 0) \/ (c <> 0 /\ cv <> 0).
Proof. intros A t c cv [_ H]. destruct (t_ctx t) as [|[v n] r]; [auto|]. right. tauto. Qed.
Lemma ctx_root : forall A t c cv, ctxOk A t c cv -> In (c, []) A.
Proof.
  intros A t c cv [H0 H]. destruct (t_ctx t) as [|[v n] r].
  - destruct H as [-> _]. eapply nth_error_In; eauto.
  - destruct H as (_ & _ & _ & H). eapply nth_error_In; eauto.
Qed.
Lemma cx_cur : forall A t c cv root, ctxOk A t c cv -> root = 0 \/ root = cv -> Nat.eqb (cx root c) c = Nat.eqb root cv.
Proof.
  intros A t c cv root HC Hr. apply ctx_cases in HC. unfold cx. destruct (Nat.eqb_spec root 0) as [->|Hn].
  - destruct HC as [[-> ->]|[H1 H2]]; auto. destruct c, cv; auto; lia.
  - destruct Hr as [->| ->]; [contradiction|]. now rewrite !Nat.eqb_refl.
Qed.
Lemma curp_paths : forall A t c cv e, ctxOk A t c cv -> (forall f, In f (frefs e) -> fst f = 0 \/ fst f = cv) -> curp c e = pathsOf cv e.
Proof.
  intros A t c cv e HC HR. unfold curp, pathsOf. f_equal. induction (frefs e) as [|f l IH]; auto. cbn [filter].
  rewrite (cx_cur A t c cv (fst f) HC) by (apply HR; now left). rewrite IH; auto. intros g Hg. apply HR. now right.
Qed.
Lemma base_prefix : forall P aft p, baseSpec P aft p -> p <> [] -> exists q, In q P /\ exists r, q = p ++ r.
Proof.
  intros P aft p H Hp. destruct aft; destruct H as [H1 H2].
  - destruct H2 as [(q & _ & Hq & _) _]. destruct (H1 q Hq) as (k & r & E). eauto.
  - destruct P as [|q P]; [now rewrite H2 in Hp|]. exists q. split; [now left|]. exists []. rewrite app_nil_r. apply H1. now left.
Qed.
Lemma base_two : forall P aft p q, baseSpec P aft p -> In q P -> baseOf aft p <> Some q -> two P.
Proof.
  intros P aft p q H Hq Hn. destruct aft; destruct H as [H1 H2]; [apply H2|]. exfalso. apply Hn. cbn. now rewrite (H1 q Hq).
Qed.
Lemma cx_two : forall root c, cx root c = 0 \/ cx root c = c.
Proof. intros root c. unfold cx. destruct (Nat.eqb root 0); auto. Qed.

Lemma hasAfter_step : forall PA PO t A ow t' A' ow' n, step_ PA PO t A ow t' A' ow' -> hasAfter (t_heap t) n -> hasAfter (t_heap t') n.
Proof. intros PA PO t A ow t' A' ow' n [_ _ _ [_ H] _ _]. apply H. Qed.

Lemma bounded_more : forall A a t t', bounded A t -> t_bucket t <= t_bucket t' -> Forall (fun x => fst x < t_bucket t') a -> bounded (A ++ a) t'.
Proof.
  intros A a t t' HB HL HA. apply Forall_app. split; auto. eapply Forall_impl; [|exact HB]. cbn. intros. lia.
Qed.

Lemma atom_grown : forall sa t A ow t2 A2 ow2 b op a, step_ (asksA sa) (asksO sa) t A ow t2 A2 ow2 ->
  nth_error A2 (bnode b) = Some a -> (baft b = true -> hasAfter (t_heap t2) (bnode b)) ->
  placed A2 ow2 sa (bnode b) (baft b) (IOp op) ->
  exists t', addOp t2 b op = Ok t' /\ grown [sa] t A ow t' A2 ow2 /\ tpart t' = tpart t.
Proof.
  intros sa t A ow t2 A2 ow2 b op a ST Eb HA HP. destruct ST as [R (a1 & EA & F1) (b1 & EO & F2) [SC _] C T].
  destruct (addOp_ok t2 A2 ow2 b op a R Eb HA) as (t' & E & R' & C' & T' & HI). exists t'. split; auto. split; [|congruence].
  constructor; auto; try congruence.
  - exists a1. split; auto. eapply Forall_impl; [|exact F1]. intros x Hx. exists sa. split; auto. now left.
  - exists b1. split; auto. eapply Forall_impl; [|exact F2]. intros x Hx. exists sa. split; auto. now left.
  - intros n aft it H. apply HI. left. now apply SC.
  - intros n aft it H. apply HI in H as [H|(-> & -> & ->)]; [left; now apply SC|]. right. exists sa. split; auto. now left.
  - intros x [<-|[]]. exists (bnode b), (baft b), (IOp op). split; auto. apply HI. auto.
Qed.

(** The addresses and owners an atom [e] asks for. *)
Lemma atom_asksA : forall A t c cv e aft p x, ctxOk A t c cv -> baseSpec (curp c e) aft p ->
  fst x = c /\ snd x <> [] /\ (exists r, p = snd x ++ r) -> PAe c e x.
Proof.
  intros A t c cv e aft p x HC HB (E1 & E2 & r & E3).
  destruct (base_prefix _ _ _ HB) as (q & Hq & r' & E4); [destruct p; [destruct (snd x); [contradiction|discriminate]|discriminate]|].
  unfold curp in Hq. rewrite in_map_iff in Hq. destruct Hq as ([root q'] & E5 & Hf). cbn in E5. subst q'. apply filter_In in Hf as [Hf Hc].
  apply Nat.eqb_eq in Hc. cbn in Hc. exists root, q, (r ++ r'). split; auto. split; [congruence|]. rewrite E4, E3. now rewrite app_assoc.
Qed.
Lemma atom_asksO : forall c e sub aft p x, baseSpec (curp c e) aft p -> incl (frefs sub) (frefs e) -> POe c (baseOf aft p) sub x ->
  exists root q, In (root, q) (frefs e) /\ x = (cx root c, q) /\ (cx root c = c -> two (curp c e)).
Proof.
  intros c e sub aft p x HB HI (root & q & Hf & -> & Hn). exists root, q. split; auto. split; auto. intro E.
  eapply base_two; [exact HB| |intro Q; apply Hn; split; [exact Q|exact E]].
  unfold curp. apply in_map_iff. exists (root, q). split; auto. apply filter_In. split; auto. cbn. now apply Nat.eqb_eq.
Qed.
Lemma PAe_incl : forall c e sub x, incl (frefs sub) (frefs e) -> PAe c sub x -> PAe c e x.
Proof. intros c e sub x HI (root & q & r & H1 & H2). exists root, q, r. auto. Qed.
Lemma PAe_bound : forall A t c cv e x, ctxOk A t c cv -> bounded A t -> PAe c e x -> fst x < t_bucket t.
Proof.
  intros A t c cv e x HC HB (root & q & r & _ & -> & _). assert (c < t_bucket t) as H1.
  { unfold bounded in HB. rewrite Forall_forall in HB. exact (HB (c, []) (ctx_root _ _ _ _ HC)). }
  destruct (cx_two root c) as [-> | ->]; lia.
Qed.
Lemma grown_bounded : forall S t A ow t' A' ow', grown S t A ow t' A' ow' -> bounded A t -> t_bucket t <= t_bucket t' ->
  (forall x, (exists s, In s S /\ asksA s x) -> fst x < t_bucket t') -> bounded A' t'.
Proof.
  intros S t A ow t' A' ow' [_ (a & -> & F) _ _ _ _ _] HB HL HX. eapply bounded_more; eauto.
  eapply Forall_impl; [|exact F]. exact HX.
Qed.

Lemma exists_ok : forall A t ow c cv a, repT t A ow -> ctxOk A t c cv -> bounded A t -> operandOk o cv a -> prefix_free (pathsOf cv a) ->
  exists t' A' ow', transformExists o a t = Ok t' /\ grown [Site c (t_active t) (XExists a)] t A ow t' A' ow' /\ bounded A' t' /\ tpart t' = tpart t.
Proof.
  intros A t ow c cv a R HC HB HO PF. set (sa := Site c (t_active t) (XExists a)). unfold transformExists.
  assert (curp c (XExists a) = pathsOf cv (XExists a)) as EC by (eapply curp_paths; eauto; intros f Hf; eapply operand_roots; eauto).
  destruct (pick_ok A t ow c cv (XExists a) (frefs (XExists a)) R HC) as (t1 & A1 & b & p & E1 & S1 & Eb & BS & HA); auto.
  { intro H. inversion H; subst. eapply operand_supported; eauto. }
  { intro f. split; intro H; [inversion H; subst; eapply operand_mentions in H1 as [? _]; eauto|]. constructor. eapply operand_mentions; eauto. }
  { intros f Hf. eapply operand_roots; eauto. }
  change (baseSpec (pathsOf cv (XExists a)) (baft b) p) in BS. rewrite <- EC in BS.
  rewrite E1. cbn [obind]. pose proof (ctxOk_step _ _ _ _ _ _ _ _ _ _ S1 HC) as HC1.
  destruct (makeRef_ok a A1 t1 ow c cv b p (sp_rep _ _ _ _ _ _ _ _ S1) HC1 HO Eb) as (t2 & A2 & ow2 & d & E2 & S2 & D).
  rewrite E2. cbn [obind]. pose proof (step_nth _ _ _ _ _ _ _ _ _ _ S2 Eb) as Eb2.
  assert (step_ (asksA sa) (asksO sa) t A ow t2 A2 ow2) as ST.
  { eapply step_trans; [eapply step_weaken; [| |exact S1]|eapply step_weaken; [| |exact S2]].
    - intros x Hx. eapply atom_asksA; eauto.
    - intros x [].
    - intros x Hx. eapply PAe_incl; [|exact Hx]. intros f Hf. exact Hf.
    - intros x Hx. eapply atom_asksO; eauto. intros f Hf. exact Hf. }
  assert (t_active t2 = t_active t) as EA by (pose proof (sp_tp _ _ _ _ _ _ _ _ ST) as Q; unfold tpart in Q; congruence).
  destruct (atom_grown sa t A ow t2 A2 ow2 b (OpN (t_active t2) OpExists d None) _ ST Eb2) as (t' & E & G & T).
  { intro Q. eapply hasAfter_step; [exact S2|auto]. }
  { exists p. split; auto. split; auto. exists d. rewrite EA. auto. }
  exists t', A2, ow2. split; auto. split; auto. split; auto.
  assert (t_bucket t' = t_bucket t) as EB by (unfold tpart in T; congruence).
  eapply grown_bounded; eauto; [lia|]. intros x (s' & [<-|[]] & Hx). rewrite EB. eapply PAe_bound; [exact HC|exact HB|exact Hx].
Qed.

Lemma cmp_ok : forall A t ow c cv kk ty l r, cmpOp kk = Some ty -> repT t A ow -> ctxOk A t c cv -> bounded A t ->
  operandOk o cv l -> operandOk o cv r -> prefix_free (pathsOf cv (XCmp kk l r)) ->
  exists t' A' ow', transformComparison o (XCmp kk l r) ty l r t = Ok t'
    /\ grown [Site c (t_active t) (XCmp kk l r)] t A ow t' A' ow' /\ bounded A' t' /\ tpart t' = tpart t.
Proof.
  intros A t ow c cv kk ty l r Ek R HC HB HOl HOr PF. set (e := XCmp kk l r) in *. set (sa := Site c (t_active t) e). unfold transformComparison.
  assert (forall f, In f (frefs e) -> fst f = 0 \/ fst f = cv) as HR.
  { intros f Hf. cbn in Hf. apply in_app_iff in Hf as [Hf|Hf]; [exact (operand_roots l cv f HOl Hf)|exact (operand_roots r cv f HOr Hf)]. }
  assert (curp c e = pathsOf cv e) as EC by (eapply curp_paths; eauto).
  destruct (pick_ok A t ow c cv e (frefs e) R HC) as (t1 & A1 & b & p & E1 & S1 & Eb & BS & HA); auto.
  { intro H. inversion H; subst; [exact (operand_supported l cv HOl ltac:(assumption))|exact (operand_supported r cv HOr ltac:(assumption))]. }
  { intro f. cbn [frefs e]. rewrite in_app_iff. split; intro H.
    - inversion H; subst; [left|right]; eapply operand_mentions; eauto.
    - destruct H as [H|H]; [apply men_l|apply men_r]; [apply (operand_mentions l cv f [] HOl)|apply (operand_mentions r cv f [] HOr)]; auto. }
  change (baseSpec (pathsOf cv e) (baft b) p) in BS. rewrite <- EC in BS.
  rewrite E1. cbn [obind]. pose proof (ctxOk_step _ _ _ _ _ _ _ _ _ _ S1 HC) as HC1.
  destruct (makeRef_ok l A1 t1 ow c cv b p (sp_rep _ _ _ _ _ _ _ _ S1) HC1 HOl Eb) as (t2 & A2 & ow2 & dl & E2 & S2 & D2).
  rewrite E2. cbn [obind]. pose proof (step_nth _ _ _ _ _ _ _ _ _ _ S2 Eb) as Eb2. pose proof (ctxOk_step _ _ _ _ _ _ _ _ _ _ S2 HC1) as HC2.
  destruct (makeRef_ok r A2 t2 ow2 c cv b p (sp_rep _ _ _ _ _ _ _ _ S2) HC2 HOr Eb2) as (t3 & A3 & ow3 & dr & E3 & S3 & D3).
  rewrite E3. cbn [obind]. pose proof (step_nth _ _ _ _ _ _ _ _ _ _ S3 Eb2) as Eb3.
  assert (incl (frefs l) (frefs e)) as Il by (intros f Hf; cbn; apply in_app_iff; auto).
  assert (incl (frefs r) (frefs e)) as Ir by (intros f Hf; cbn; apply in_app_iff; auto).
  assert (step_ (asksA sa) (asksO sa) t A ow t3 A3 ow3) as ST.
  { eapply step_trans; [eapply step_weaken; [| |exact S1]|eapply step_trans; [eapply step_weaken; [| |exact S2]|eapply step_weaken; [| |exact S3]]].
    - intros x Hx. eapply atom_asksA; eauto.
    - intros x [].
    - intros x Hx. eapply PAe_incl; [|exact Hx]. auto.
    - intros x Hx. exact (atom_asksO c e l _ _ x BS Il Hx).
    - intros x Hx. eapply PAe_incl; [|exact Hx]. auto.
    - intros x Hx. exact (atom_asksO c e r _ _ x BS Ir Hx). }
  assert (t_active t3 = t_active t) as EA by (pose proof (sp_tp _ _ _ _ _ _ _ _ ST) as Q; unfold tpart in Q; congruence).
  destruct (atom_grown sa t A ow t3 A3 ow3 b (OpN (t_active t3) ty dl dr) _ ST Eb3) as (t' & E & G & T).
  { intro Q. eapply hasAfter_step; [exact S3|]. eapply hasAfter_step; [exact S2|auto]. }
  { exists p. split; auto. split; auto. exists ty, dl, dr. rewrite EA. split; auto. split; auto.
    destruct (sp_ow _ _ _ _ _ _ _ _ S3) as (bb & -> & _). now apply odrefOf_ext. }
  exists t', A3, ow3. split; auto. split; auto. split; auto.
  assert (t_bucket t' = t_bucket t) as EB by (unfold tpart in T; congruence).
  eapply grown_bounded; eauto; [lia|]. intros x (s' & [<-|[]] & Hx). rewrite EB. eapply PAe_bound; [exact HC|exact HB|exact Hx].
Qed.

Definition places (kf : tr -> outcome tr) (f : form) (S : nat -> list site) (c cv : nat) : Prop :=
  forall t A ow T0 p, openAt t T0 p -> repT t A ow -> ctxOk A t c cv -> bounded A t ->
  exists t' A' ow', kf t = Ok t' /\ laidTo t' T0 p f /\ grown (S (length T0)) t A ow t' A' ow' /\ bounded A' t'.

Lemma ctxOk_change : forall A a t t' c cv, t_ctx t' = t_ctx t -> ctxOk A t c cv -> ctxOk (A ++ a) t' c cv.
Proof.
  intros A a t t' c cv E [H0 H]. split; [now apply nth_app_l|]. rewrite E. destruct (t_ctx t) as [|[v n] r]; auto.
  destruct H as (? & ? & ? & ?). repeat split; auto. now apply nth_app_l.
Qed.
Lemma bounded_change : forall A t t', t_bucket t <= t_bucket t' -> bounded A t -> bounded A t'.
Proof. intros A t t' HL HB. eapply Forall_impl; [|exact HB]. cbn. intros. lia. Qed.

Lemma places_not : forall kf f S c cv, grows kf f -> places kf f S c cv -> places (transformNot kf) (FNot f) (fun k => S (Datatypes.S k)) c cv.
Proof.
  intros kf f S c cv HG HP t A ow T0 p HO R HC HB. unfold transformNot.
  destruct (openLeft_spec NNot t T0 p HO) as (t1 & E & C1 & H1 & L1 & HO1). rewrite E. cbn [obind].
  destruct (HP t1 A ow _ _ HO1) as (t' & A' & ow' & E' & _ & G & B).
  { now rewrite H1, L1. }
  { rewrite <- (app_nil_r A). eapply ctxOk_change; eauto. }
  { eapply bounded_change; [|exact HB]. destruct HO as (_ & -> & _), HO1 as (_ & -> & _). rewrite app_length. lia. }
  exists t', A', ow'. split; auto. split.
  { eapply (grows_not kf f HG t T0 p t' HO). unfold transformNot. rewrite E. exact E'. }
  split; auto. rewrite app_length in G. cbn [length] in G. rewrite Nat.add_1_r in G. eapply grown_change; eauto. rewrite (g_ctx _ _ _ _ _ _ _ G). congruence.
Qed.

Lemma places_bin : forall bo k1 f1 Sa k2 f2 Sb c cv, grows k1 f1 -> grows k2 f2 -> places k1 f1 Sa c cv -> places k2 f2 Sb c cv ->
  places (transformBin (btype bo) k1 k2) (FBin bo f1 f2) (fun k => Sa (S k) ++ Sb (S k + fsize f1)) c cv.
Proof.
  intros bo k1 f1 Sa k2 f2 Sb c cv G1 G2 P1 P2 t A ow T0 p HO R HC HB. unfold transformBin.
  destruct (openLeft_spec (btype bo) t T0 p HO) as (t1 & E & C1 & H1 & L1 & HO1). rewrite E. cbn [obind].
  destruct (P1 t1 A ow _ _ HO1) as (t2 & A2 & ow2 & E2 & LT & Ga & B2).
  { now rewrite H1, L1. }
  { rewrite <- (app_nil_r A). eapply ctxOk_change; eauto. }
  { eapply bounded_change; [|exact HB]. destruct HO as (_ & -> & _), HO1 as (_ & -> & _). rewrite app_length. lia. }
  rewrite E2. cbn [obind]. destruct LT as [HT HBk].
  rewrite <- app_assoc in HT. cbn [app] in HT. rewrite app_length in *. cbn [length] in *. rewrite Nat.add_1_r in *.
  assert (t_active t = length T0) as EA by apply HO. rewrite EA.
  destruct (openRight_spec (btype bo) t2 T0 p f1 HT) as (t3 & E3 & C3 & H3 & L3 & HO3); [lia|].
  rewrite E3. cbn [obind]. pose proof (g_A _ _ _ _ _ _ _ Ga) as (a & EAa & _).
  destruct (P2 t3 A2 ow2 _ _ HO3) as (t' & A' & ow' & E' & LT' & Gb & B').
  { rewrite H3, L3. apply (g_rep _ _ _ _ _ _ _ Ga). }
  { rewrite EAa. eapply ctxOk_change; [|exact HC]. rewrite C3, (g_ctx _ _ _ _ _ _ _ Ga), C1. reflexivity. }
  { eapply bounded_change; [|exact B2]. destruct HO3 as (_ & -> & _). rewrite app_length. cbn [length]. rewrite lay_length. lia. }
  rewrite E'. exists t', A', ow'. split; auto. split.
  { eapply (grows_bin bo k1 f1 k2 f2 G1 G2 t T0 p t' HO). unfold transformBin. rewrite E. cbn [obind]. rewrite E2. cbn [obind]. rewrite EA, E3. exact E'. }
  split; auto. rewrite app_length in Gb. cbn [length] in Gb. rewrite lay_length in Gb.
  replace (length T0 + S (fsize f1)) with (S (length T0) + fsize f1) in Gb by lia.
  eapply grown_trans; [eapply (grown_change _ _ _ _ _ _ _ t t2 Ga)|eapply (grown_change _ _ _ _ _ _ _ t2 t' Gb)]; auto.
  - rewrite (g_ctx _ _ _ _ _ _ _ Ga). congruence.
  - rewrite (g_ctx _ _ _ _ _ _ _ Gb). congruence.
Qed.

Lemma tpart_open : forall t t' T0 p, tpart t' = tpart t -> openAt t T0 p -> laidTo t' T0 p FLeaf.
Proof. intros. apply openAt_leaf. eapply openAt_tpart; eauto. Qed.

Lemma places_exists : forall c cv a, operandOk o cv a -> prefix_free (pathsOf cv a) ->
  places (transformExists o a) FLeaf (fun k => [Site c k (XExists a)]) c cv.
Proof.
  intros c cv a HO PF t A ow T0 p Op R HC HB. destruct (exists_ok A t ow c cv a R HC HB HO PF) as (t' & A' & ow' & E & G & B & T).
  exists t', A', ow'. split; auto. split; [eapply tpart_open; eauto|]. destruct Op as (_ & _ & <-). auto.
Qed.
Lemma places_cmp : forall c cv kk ty l r, cmpOp kk = Some ty -> operandOk o cv l -> operandOk o cv r -> prefix_free (pathsOf cv (XCmp kk l r)) ->
  places (transformComparison o (XCmp kk l r) ty l r) FLeaf (fun k => [Site c k (XCmp kk l r)]) c cv.
Proof.
  intros c cv kk ty l r Ek Hl Hr PF t A ow T0 p Op R HC HB. destruct (cmp_ok A t ow c cv kk ty l r Ek R HC HB Hl Hr PF) as (t' & A' & ow' & E & G & B & T).
  exists t', A', ow'. split; auto. split; [eapply tpart_open; eauto|]. destruct Op as (_ & _ & <-). auto.
Qed.

Lemma places_loop : forall m v q s c cv kf f Sb, v <> 0 -> prefix_free (loopPaths cv q s) -> compilable o v s ->
  grows kf f -> (forall c', places kf f (Sb c') c' v) ->
  places (transformLoop o m v (XField cv q) s kf) (FLoop f) (fun k => Site c k (XLoop m v (XField cv q) s) :: Sb (S k) (S k)) c cv.
Proof.
  intros m v q s c cv kf f Sb Hv PF Hs HG HP t A ow T0 p HO R HC HB. set (e := XLoop m v (XField cv q) s). unfold transformLoop.
  fold e. set (k := length T0).
  set (L := (cv, q) :: filter (fun g => Nat.eqb (fst g) 0) (frefs s)).
  assert (map snd (filter (fun g => Nat.eqb (fst g) cv) L) = loopPaths cv q s) as EL.
  { unfold L, loopPaths, pathsOf. cbn [filter fst]. rewrite Nat.eqb_refl. cbn [map snd]. f_equal.
    destruct (Nat.eqb_spec cv 0) as [->|Hn].
    - f_equal. induction (frefs s) as [|g l IH]; auto. cbn [filter]. destruct (Nat.eqb (fst g) 0) eqn:E; auto. cbn [filter]. rewrite E. congruence.
    - induction (frefs s) as [|g l IH]; auto. cbn [filter]. destruct (Nat.eqb_spec (fst g) 0) as [E|]; auto. cbn [filter].
      rewrite E. destruct (Nat.eqb_spec 0 cv); [lia|auto]. }
  assert (loopP c q s = loopPaths cv q s) as ELP.
  { unfold loopP, loopPaths. destruct (ctx_cases _ _ _ _ HC) as [[-> ->]|[H1 H2]]; auto. destruct c, cv; auto; lia. }
  assert (cx cv c = c) as Ecx by (apply Nat.eqb_eq; rewrite (cx_cur A t c cv cv HC) by auto; apply Nat.eqb_refl).
  assert (c < t_bucket t) as Hcb by (unfold bounded in HB; rewrite Forall_forall in HB; exact (HB _ (ctx_root _ _ _ _ HC))).
  destruct (pick_ok A t ow c cv e L R HC) as (t1 & A1 & b & pp & E1 & S1 & Eb & BS & HA).
  { intro H. inversion H as [| | | | | | |m' v' i' s' Hi| m' v' i' s' Hb| | |]; subst; [inversion Hi|eapply body_supported; eauto]. }
  { intro g. unfold L. cbn [In]. rewrite filter_In, Nat.eqb_eq.
    pose proof (body_mentions s v [v] g Hv Hs (or_introl eq_refl)) as X.
    assert (~ In 0 [v]) as Y by (intros [Q|[]]; auto). specialize (X Y). split; intro H.
    - inversion H as [| | | | |m' v' i' s' vs' g' Hi|m' v' i' s' vs' g' Hb| | | |]; subst.
      + left. now inversion Hi.
      + right. now apply X.
    - destruct H as [<-|H]; [apply men_in; constructor; intros []|apply men_body; now apply X]. }
  { intros g [<-|Hg]; [now right|]. left. apply filter_In in Hg as [_ Hg]. now apply Nat.eqb_eq. }
  { rewrite EL. exact PF. }
  rewrite EL, <- ELP in BS. rewrite E1. cbn [obind]. pose proof (ctxOk_step _ _ _ _ _ _ _ _ _ _ S1 HC) as HC1.
  destruct (makeRef_ok (XField cv q) A1 t1 ow c cv b pp (sp_rep _ _ _ _ _ _ _ _ S1) HC1 (or_intror eq_refl) Eb) as (t2 & A2 & ow2 & tg & E2 & S2 & D).
  rewrite E2. cbn [obind]. pose proof (step_nth _ _ _ _ _ _ _ _ _ _ S2 Eb) as Eb2.
  assert (step_ (fun x => fst x = c /\ exists r, q = snd x ++ r) (asksO (Site c k e)) t A ow t2 A2 ow2) as ST.
  { eapply step_trans; [eapply step_weaken; [| |exact S1]|eapply step_weaken; [| |exact S2]].
    - intros x (X1 & X2 & r & X3). split; auto. destruct (baft b); destruct BS as [B1 B2].
      + destruct (B1 q (or_introl eq_refl)) as (y & r' & ->). exists (r ++ y :: r'). rewrite X3. now rewrite app_assoc.
      + exists r. rewrite (B1 q (or_introl eq_refl)). auto.
    - intros x [].
    - intros x (root & q' & r & [Q|[]] & X1 & X2). inversion Q; subst root q'. split; [congruence|]. now exists r.
    - intros x (root & q' & [Q|[]] & -> & X2). inversion Q; subst root q'. cbn. rewrite Ecx. split; auto.
      eapply base_two; [exact BS|now left|]. intro Q'. apply X2. auto. }
  assert (tpart t2 = tpart t) as T2 by apply ST.
  assert (openAt t2 T0 p) as HO2 by (eapply openAt_tpart; eauto).
  destruct (openLeft_spec NLoop t2 T0 p HO2) as (t3 & E3 & C3 & H3 & L3 & HO3). rewrite E3. cbn [obind].
  assert (t_bucket t = S k) as Ebk by apply HO.
  assert (t_bucket t3 = S (S k)) as Ebk3 by (destruct HO3 as (_ & -> & _); rewrite app_length; cbn; unfold k; lia).
  assert (t_active t3 = S k) as Eak3 by (destruct HO3 as (_ & _ & ->); rewrite app_length; cbn; unfold k; lia).
  assert (bounded A2 t) as HB2.
  { destruct (sp_A _ _ _ _ _ _ _ _ ST) as (a & -> & F). eapply bounded_more; [exact HB|lia|]. eapply Forall_impl; [|exact F].
    intros x [-> _]. exact Hcb. }
  assert (~ In (S k, []) A2) as Hfr.
  { intro Q. unfold bounded in HB2. rewrite Forall_forall in HB2. specialize (HB2 _ Q). cbn in HB2. lia. }
  set (t4 := setHeap t3 (t_heap t3 ++ [emptyExec])).
  assert (repT t4 (A2 ++ [(S k, [])]) ow2) as R4.
  { unfold t4. cbn [t_heap setHeap t_slot]. rewrite H3, L3. apply rep_new; auto. apply ST. }
  assert (sameC (t_heap t) (t_heap t4)) as SC4.
  { eapply sameC_trans; [apply ST|]. unfold t4. cbn [t_heap setHeap]. rewrite H3. apply sameC_new. }
  assert (nth_error (A2 ++ [(S k, [])]) (bnode b) = Some (c, pp)) as Eb4 by now apply nth_app_l.
  assert (length (t_heap t3) = length A2) as EL3 by (rewrite H3; symmetry; apply (rp_len _ _ _ _ (sp_rep _ _ _ _ _ _ _ _ ST))).
  assert (nth_error (A2 ++ [(S k, [])]) (length (t_heap t3)) = Some (S k, [])) as En4
    by (rewrite nth_snoc, EL3, Nat.eqb_refl; reflexivity).
  assert (if baft b then exists i, tg = Some (DSlot (S i)) /\ nth_error ow2 i = Some (c, q) else tg = None /\ pp = q) as Htg.
  { cbn [odrefOf] in D. destruct (baft b); cbn [baseOf] in D.
    - destruct D as [(_ & Q & _)|(_ & i & Q1 & Q2)]; [discriminate|]. rewrite Ecx in Q2. eauto.
    - destruct BS as [B1 _]. pose proof (B1 q (or_introl eq_refl)) as Eq. destruct D as [(Q & _ & _)|(Q & _)]; [auto|].
      exfalso. apply Q. split; congruence. }
  destruct (addLoop_ok t4 _ ow2 b (LoopN (t_active t4) m tg (length (t_heap t3))) _ R4 Eb4) as (t5 & E5 & R5 & C5 & T5 & L5 & I5).
  { intro Q. unfold t4. cbn [t_heap setHeap]. rewrite H3. apply sameC_new. eapply hasAfter_step; [exact S2|auto]. }
  { cbn [lp_target]. destruct (baft b); [destruct Htg as (i & -> & _); eauto|tauto]. }
  rewrite E5. cbn [obind].
  assert (t_ctx t5 = t_ctx t) as C5'.
  { rewrite C5. unfold t4. cbn [t_ctx setHeap]. rewrite C3. apply ST. }
  assert (openAt (pushContext t5 v (length (t_heap t3))) (T0 ++ [Node NLoop p (S (length T0)) 0]) (length T0)) as HO5.
  { eapply openAt_tpart; [|exact HO3]. etransitivity; [|exact T5]. reflexivity. }
  assert (t_bucket t5 = S (S k)) as Ebk5 by (destruct HO5 as (_ & Q & _); cbn in Q; rewrite Q, app_length; cbn; unfold k; lia).
  assert (bounded (A2 ++ [(S k, [])]) t5) as HB5.
  { eapply bounded_more; [exact HB2|lia|]. constructor; [cbn; lia|constructor]. }
  assert (placed (A2 ++ [(S k, [])]) ow2 (Site c k e) (bnode b) (baft b) (ILoop (LoopN (t_active t4) m tg (length (t_heap t3))))) as HPl.
  { exists pp. split; auto. unfold e. split; auto. split; auto. exists (length (t_heap t3)), tg.
    split; [unfold t4; cbn [t_active setHeap]; now rewrite Eak3|]. split; auto. split; auto.
    rewrite EL3. eapply nth_lt; eauto. }
  assert (grown [Site c k e] t A ow t5 (A2 ++ [(S k, [])]) ow2) as G5.
  { constructor; auto.
    - destruct (sp_A _ _ _ _ _ _ _ _ ST) as (a & -> & F). exists (a ++ [(S k, [])]). rewrite app_assoc. split; auto.
      apply Forall_app. split.
      + eapply Forall_impl; [|exact F]. intros x Hx. exists (Site c k e). split; [now left|]. now left.
      + constructor; [|constructor]. exists (Site c k e). split; [now left|]. now right.
    - destruct (sp_ow _ _ _ _ _ _ _ _ ST) as (bb & -> & F). exists bb. split; auto. eapply Forall_impl; [|exact F].
      intros x Hx. exists (Site c k e). split; auto. now left.
    - intros n aft it H. apply I5. left. now apply SC4.
    - intros n aft it H. apply I5 in H as [H|(-> & -> & ->)]; [left; now apply SC4|]. right. exists (Site c k e). split; auto. now left.
    - intros x [<-|[]]. eexists _, _, _. split; [|exact HPl]. apply I5. auto. }
  destruct (HP (S k) (pushContext t5 v (length (t_heap t3))) _ ow2 _ _ HO5 R5) as (t6 & A6 & ow6 & E6 & LT6 & G6 & B6).
  { split; [|cbn; auto]. apply nth_app_l. eapply step_nth; [exact ST|]. apply HC. }
  { exact HB5. }
  rewrite E6. cbn [obind]. unfold popContext. rewrite (g_ctx _ _ _ _ _ _ _ G6). cbn [pushContext t_ctx setCtx]. rewrite Nat.eqb_refl.
  exists (setCtx t6 (t_ctx t5)), A6, ow6. split; auto. split; [|split].
  - eapply (grows_loop o m v (XField cv q) s kf f HG t T0 p _ HO). unfold transformLoop. fold e. rewrite E1. cbn [obind]. rewrite E2. cbn [obind].
    rewrite E3. cbn [obind]. fold t4. rewrite E5. cbn [obind]. rewrite E6. cbn [obind]. unfold popContext. rewrite (g_ctx _ _ _ _ _ _ _ G6).
    cbn [pushContext t_ctx setCtx]. rewrite Nat.eqb_refl. reflexivity.
  - fold k. change (Site c k e :: Sb (S k) (S k)) with ([Site c k e] ++ Sb (S k) (S k)).
    eapply grown_trans; [exact G5|]. rewrite app_length in G6. cbn [length] in G6. rewrite Nat.add_1_r in G6. fold k in G6.
    eapply grown_change; [exact G6|reflexivity..].
  - exact B6.
Qed.

(** ** The whole compilation *)
Lemma places_one : forall e c cv, compilable o cv e -> places (transformOne o e) (structure e) (fun k => sites c k e) c cv.
Proof.
  assert (forall bo l c cv, l <> [] -> allC o cv l ->
    Forall (fun e => forall c cv, compilable o cv e -> places (transformOne o e) (structure e) (fun k => sites c k e) c cv) l ->
    places (transformChain o (btype bo) l) (joined bo (map structure l)) (fun k => sitesChain c k l) c cv) as HCh.
  { intros bo l c cv Hne HC HF. induction HF as [|a r Ha Hr IH]; [contradiction|]. destruct HC as [HCa HCr].
    destruct r as [|b r]; [apply Ha; auto|].
    change (joined bo (map structure (a :: b :: r))) with (FBin bo (structure a) (joined bo (map structure (b :: r)))).
    change (transformChain o (btype bo) (a :: b :: r)) with (transformBin (btype bo) (transformOne o a) (transformChain o (btype bo) (b :: r))).
    change (fun k => sitesChain c k (a :: b :: r)) with
      (fun k => (fun k => sites c k a) (S k) ++ (fun k => sitesChain c k (b :: r)) (S k + fsize (structure a))).
    apply places_bin.
    - apply grows_one.
    - apply grows_chain; auto. apply Forall_forall. intros. apply grows_one.
    - apply Ha; auto.
    - apply IH; [discriminate|auto]. }
  assert (forall c cv e, transformOne o e = (fun t => Ok t) -> sites c 0 e = [] -> (forall k, sites c k e = []) -> structure e = FLeaf ->
    places (transformOne o e) (structure e) (fun k => sites c k e) c cv) as HL.
  { intros c cv e E1 _ E2 E3 t A ow T0 p HO R HC HB. rewrite E1, E3, E2. exists t, A, ow. split; auto. split; [now apply openAt_leaf|].
    split; auto. now apply grown_refl. }
  induction e as [| |g|sa|sa|sa|a IH|l IH|l IH|r q|n l IH|m v i s IHi IHs|a IH|a IH|k l r IHl IHr] using expr_ind';
    intros c cv HC; try (apply HL; auto; fail); try (destruct HC; fail).
  - apply (places_not (transformOne o a) (structure a) (fun k => sites c k a)); auto using grows_one.
  - apply compilable_and in HC as [H1 H2]. intros t A ow T0 p. rewrite transformOne_and. 
    change (sites c (length T0) (XAnd l)) with ((fun k => sites c k (XAnd l)) (length T0)). cbv beta. rewrite sites_and.
    apply (HCh BAnd l c cv H1 H2 IH).
  - apply compilable_or in HC as [H1 H2]. intros t A ow T0 p. rewrite transformOne_or.
    change (sites c (length T0) (XOr l)) with ((fun k => sites c k (XOr l)) (length T0)). cbv beta. rewrite sites_or.
    apply (HCh BOr l c cv H1 H2 IH).
  - destruct HC as (Hv & (q & -> & PF) & HC).
    apply (places_loop m v q s c cv (transformOne o s) (structure s) (fun c' k => sites c' k s)); auto using grows_one.
  - destruct HC as [H1 H2]. now apply places_exists.
  - destruct HC as (_ & H1 & H2). apply (places_not (transformExists o a) FLeaf (fun k => [Site c k (XExists a)])).
    + apply grows_exists.
    + now apply places_exists.
  - destruct HC as (H1 & H2 & H3). destruct k;
      try (apply places_cmp; auto; fail).
    apply (places_not (transformComparison o (XCmp CEq l r) OpEquals l r) FLeaf (fun k => [Site c k (XCmp CEq l r)])).
    + apply grows_cmp.
    + now apply places_cmp.
Qed.

Fixpoint sitesMerge (k : nat) (e : expr) (es : list expr) : list site :=
  match es with
  | [] => sites 0 k e
  | e2 :: r => sites 0 (S k) e ++ sitesMerge (S k + fsize (structure e)) e2 r
  end.

Lemma places_merge : forall es e t A ow T0 p, Forall (compilable o 0) (e :: es) -> openAt t T0 p -> repT t A ow ->
  ctxOk A t 0 0 -> bounded A t ->
  exists t' A' ow' ids, transformMerge o (e :: es) t = Ok (t', ids) /\ grown (sitesMerge (length T0) e es) t A ow t' A' ow' /\ bounded A' t'.
Proof.
  induction es as [|e2 es IH]; intros e t A ow T0 p HF HO R HC HB; inversion HF as [|? ? He Hes]; subst.
  - destruct (places_one e 0 0 He t A ow T0 p HO R HC HB) as (t' & A' & ow' & E & _ & G & B).
    cbn [transformMerge]. rewrite E. cbn [obind]. eauto 8.
  - change (transformMerge o (e :: e2 :: es) t) with
      (do t1 <- openLeft NNeor t; do t2 <- transformOne o e t1; do t3 <- openRight (t_active t) t2;
       do (t4, ids) <- transformMerge o (e2 :: es) t3; Ok (t4, t_active t1 :: ids)).
    destruct (openLeft_spec NNeor t T0 p HO) as (t1 & E & C1 & H1 & L1 & HO1). rewrite E. cbn [obind].
    destruct (places_one e 0 0 He t1 A ow _ _ HO1) as (t2 & A2 & ow2 & E2 & LT & Ga & B2).
    { now rewrite H1, L1. }
    { rewrite <- (app_nil_r A). eapply ctxOk_change; eauto. }
    { eapply bounded_change; [|exact HB]. destruct HO as (_ & -> & _), HO1 as (_ & -> & _). rewrite app_length. lia. }
    rewrite E2. cbn [obind]. destruct LT as [HT HBk].
    rewrite <- app_assoc in HT. cbn [app] in HT. rewrite app_length in *. cbn [length] in *. rewrite Nat.add_1_r in *.
    assert (t_active t = length T0) as EA by apply HO. rewrite EA.
    destruct (openRight_spec NNeor t2 T0 p (structure e) HT) as (t3 & E3 & C3 & H3 & L3 & HO3); [lia|].
    rewrite E3. cbn [obind]. pose proof (g_A _ _ _ _ _ _ _ Ga) as (a & EAa & _).
    destruct (IH e2 t3 A2 ow2 _ _ Hes HO3) as (t' & A' & ow' & ids & E' & Gb & B').
    { rewrite H3, L3. apply (g_rep _ _ _ _ _ _ _ Ga). }
    { rewrite EAa. eapply ctxOk_change; [|exact HC]. rewrite C3, (g_ctx _ _ _ _ _ _ _ Ga), C1. reflexivity. }
    { eapply bounded_change; [|exact B2]. destruct HO3 as (_ & -> & _). rewrite app_length. cbn [length]. rewrite lay_length. lia. }
    rewrite E'. cbn [obind]. exists t', A', ow'. eexists. split; [reflexivity|]. split; auto.
    rewrite app_length in Gb. cbn [length] in Gb. rewrite lay_length in Gb.
    replace (length T0 + S (fsize (structure e))) with (S (length T0) + fsize (structure e)) in Gb by lia.
    cbn [sitesMerge].
    eapply grown_trans; [eapply (grown_change _ _ _ _ _ _ _ t t2 Ga)|eapply (grown_change _ _ _ _ _ _ _ t2 t' Gb)]; auto.
    + rewrite (g_ctx _ _ _ _ _ _ _ Ga). congruence.
    + rewrite (g_ctx _ _ _ _ _ _ _ Gb). congruence.
Qed.

(** The program compiled from [g :: gs]. *)
Record compiled (g : expr) (gs : list expr) (h : list execnode) (ns : nat) (A ow : list addr) : Prop := {
  cd_rep : rep h ns A ow;
  cd_root : nth_error A 0 = Some (0, []);
  cd_A : forall x, In x A -> x = (0, []) \/ exists s, In s (sitesMerge 0 g gs) /\ asksA s x;
  cd_ow : forall x, In x ow -> exists s, In s (sitesMerge 0 g gs) /\ asksO s x;
  cd_items : forall n aft it, itemIn h n aft it -> exists s, In s (sitesMerge 0 g gs) /\ placed A ow s n aft it;
  cd_sites : forall s, In s (sitesMerge 0 g gs) -> exists n aft it, itemIn h n aft it /\ placed A ow s n aft it
}.

Lemma merge_compiled : forall g gs, Forall (compilable o 0) (g :: gs) ->
  exists t ids A ow, transformMerge o (g :: gs) tr0 = Ok (t, ids) /\ compiled g gs (t_heap t) (t_slot t) A ow.
Proof.
  intros g gs HF.
  assert (repT tr0 [(0, [])] []) as R0.
  { constructor; cbn; auto.
    - repeat constructor; intros [].
    - intros n x c p k m H1 H2. destruct n as [|[|n]]; try discriminate. inversion H1; subst. discriminate.
    - intros m c p k H. destruct m as [|[|m]]; try discriminate. inversion H as [[X1 X2]]. now destruct p.
    - intros n x c p H1 H2 i. destruct n as [|[|n]]; try discriminate. inversion H1; subst. cbn. destruct i; split; discriminate.
    - intros [|i] a H; discriminate. }
  destruct (places_merge gs g tr0 [(0, [])] [] [] 0 HF openAt_tr0 R0) as (t & A & ow & ids & E & G & _).
  { split; cbn; auto. }
  { repeat constructor. }
  exists t, ids, A, ow. split; auto. destruct G as [R (a & -> & FA) (b & -> & FO) _ _ GI GS]. constructor; auto.
  - intros x [<-|Hx]; auto. right. rewrite Forall_forall in FA. now apply FA.
  - intros x Hx. rewrite Forall_forall in FO. now apply FO.
  - intros n aft it H. destruct (GI n aft it H) as [(x & Ex & Hx)|H']; auto.
    destruct n as [|[|n]]; try discriminate. inversion Ex; subst. destruct aft; destruct Hx.
Qed.
End Place.
