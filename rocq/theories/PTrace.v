(** What a run of the matcher over a syntax tree reports: a pure trace of events.

    [trN] lists, without any short-circuiting and without mutable slots, the
    reports made below a node of the compiled program; the run itself is shown to
    act on the predicate tree as that list of events does - also when the outcomes of
    comparisons that are not direct are replaced, provided the status stays clear. *)
From Verif Require Import Base MTokenizer SJson MLit MFastVal MMath SEvents SFormula MBinTree MSession MExpr
  MTransform MMatcher MTree SDoc PBinTree PSession PTree.
From Coq Require Import List NArith ZArith Arith Lia Bool.
Import ListNotations.
Open Scope nat_scope.

(** ** Addressing values *)
Lemma find_in : forall ks l k w, map fst l = map Ok ks -> NoDup ks -> In (Ok k, w) l -> findItem k l = Some w.
Proof.
  induction ks as [|k0 ks IH]; intros [|[k1 w1] l] k w E ND HI; try discriminate; [destruct HI|].
  cbn in E. inversion E; subst. inversion ND; subst. cbn [findItem]. destruct HI as [HI|HI].
  - inversion HI; subst. now rewrite bytes_eqb_refl.
  - destruct (bytes_eqb k k0) eqn:Ek; [|eapply IH; eauto]. apply bytes_eqb_eq in Ek. subst.
    exfalso. apply H2. apply (in_map fst) in HI. rewrite H1 in HI. apply in_map_iff in HI as (y & Ey & Hy).
    cbn in Ey. inversion Ey; subst. exact Hy.
Qed.
Lemma find_some : forall l k w, findItem k l = Some w -> In (Ok k, w) l.
Proof.
  induction l as [|[[k1| | |] w1] l IH]; intros k w H; cbn in H; try discriminate; try (right; now apply IH).
  destruct (bytes_eqb k k1) eqn:E.
  - apply bytes_eqb_eq in E. inversion H; subst. now left.
  - right. now apply IH.
Qed.
Lemma at_app : forall p q v, at_ (p ++ q) v = match at_ p v with Some w => at_ q w | None => None end.
Proof. induction p as [|k p IH]; intros q v; cbn; auto. destruct (findItem k (items v)); auto. Qed.

Lemma arr_items_in : forall es i e, In e es -> In (e_v e) (map snd (arrItems i es)).
Proof. induction es as [|x es IH]; intros i e H; [destruct H|]. destruct H as [->|H]; cbn; auto. Qed.

(** ** Slots read by an operation *)
Fixpoint drefSlots (d : dref) : list nat :=
  match d with
  | DSlot s => [s]
  | DFunc _ ps => flat_map drefSlots ps
  | _ => []
  end.
Definition odrefSlots (d : option dref) : list nat := match d with Some r => drefSlots r | None => [] end.
Definition opSlots (op : opnode) : list nat := odrefSlots (op_lhs op) ++ odrefSlots (op_rhs op).

Section DrefInd.
  Variable P : dref -> Prop.
  Hypothesis Ha : P DActive.
  Hypothesis Hs : forall s, P (DSlot s).
  Hypothesis Hf : forall n ps, Forall P ps -> P (DFunc n ps).
  Hypothesis Hv : forall v, P (DVal v).
  Fixpoint dref_ind' (d : dref) : P d :=
    match d with
    | DActive => Ha
    | DSlot s => Hs s
    | DFunc n ps => Hf n ps ((fix go l : Forall P l := match l with [] => Forall_nil _ | x :: r => Forall_cons x (dref_ind' x) (go r) end) ps)
    | DVal v => Hv v
    end.
End DrefInd.

Lemma resolveParam_ext : forall o f g lit d, (forall s, In s (drefSlots d) -> f s = g s) ->
  resolveParam o f d lit = resolveParam o g d lit.
Proof.
  intros o f g lit. induction d as [|s|n ps IH|v] using dref_ind'; intro H; cbn [resolveParam]; auto.
  - apply H. now left.
  - assert (forall p, In p ps -> resolveParam o f p lit = resolveParam o g p lit) as X.
    { intros p Hp. rewrite Forall_forall in IH. apply IH; auto. intros s Hs. apply H. cbn. apply in_flat_map. eauto. }
    destruct (funLookup n funTable) as [[h|h]|]; auto.
    + destruct ps; auto. now rewrite X by (now left).
    + destruct ps as [|p1 [|p2 r]]; auto; rewrite X by (now left); auto.
      destruct (resolveParam o g p1 lit); cbn [obind]; auto. now rewrite X by (right; now left).
Qed.
Lemma operand_ext : forall o f g lit d, (forall s, In s (odrefSlots d) -> f s = g s) ->
  operand o f d lit = operand o g d lit.
Proof. intros o f g lit [d|] H; cbn; auto. now rewrite (resolveParam_ext o f g). Qed.
Lemma opResult_ext : forall o f g lit op, (forall s, In s (opSlots op) -> f s = g s) ->
  opResult o f op lit = opResult o g op lit.
Proof.
  intros o f g lit op H. unfold opResult. unfold opSlots in H.
  rewrite (operand_ext o f g lit (op_lhs op)), (operand_ext o f g lit (op_rhs op)); auto;
    intros s Hs; apply H, in_app_iff; auto.
Qed.

(** An operation cannot crash, provided the slots it reads can be read. *)
Definition opSafe (o : oracles) (onNode : bool) (op : opnode) : Prop :=
  forall sv lit, (if onNode then lit <> None else lit = None) ->
  (forall s, In s (opSlots op) -> exists v, sv s = Ok v) -> exists b c, opResult o sv op lit = Ok (b, c).

Lemma lookup_in : forall k l m, lookup k l = Some m -> In (k, m) l.
Proof.
  induction l as [|[x v] l IH]; intros m H; cbn in H; [discriminate|]. destruct (bytes_eqb k x) eqn:E.
  - apply bytes_eqb_eq in E. inversion H; subst. now left.
  - right. auto.
Qed.

Section Trace.
  Variable o : oracles.
  Variable H : list execnode.
  Variable T : list node.
  Variable root : cst.
  (** Ghost information: the address (context, path) of every program node and of
      the owner of every slot; the body of every context; the document slots an
      operation of a loop context may read. *)
  Variable A : list (nat * list bytes).
  Variable owners : list (nat * list bytes).
  Variable bf : nat -> form.
  Variable vis : nat -> nat -> Prop.
  (** Another way to decide what is not compared directly, and what is known if some
      comparison is not direct. *)
  Variable hh : optype -> fastval -> fastval -> bool.
  Variable Col : Prop.

  Definition own (i c : nat) (q : list bytes) : Prop := nth_error owners i = Some (c, q).
  Definition below (c : nat) (p : list bytes) (i : nat) : Prop := exists k r, own i c (p ++ k :: r).
  Definition readsOk (P : nat -> Prop) (op : opnode) : Prop :=
    forall s, In s (opSlots op) -> exists i, s = S i /\ i < length owners /\ P i.

  Definition loopOk (n c : nat) (l : loopnode) : Prop :=
    n < lp_node l /\ nth_error A (lp_node l) = Some (lp_bucket l, [])
    /\ In (lp_bucket l, bf (lp_bucket l)) (bodies c (bf c)).

  Record nodeOk (n : nat) (x : execnode) (c : nat) (p : list bytes) : Prop := {
    no_elems : forall k m, lookup k (x_elems x) = Some m -> n < m /\ nth_error A m = Some (c, p ++ [k]);
    no_below : forall i k r, own i c (p ++ k :: r) -> lookup k (x_elems x) <> None;
    no_store : forall i, x_store x = S i -> own i c p;
    no_owner : forall i, own i c p -> x_store x = S i;
    no_ops : Forall (fun op => In (op_bucket op) (leaves c (bf c)) /\ opSafe o true op /\ readsOk (vis c) op) (x_ops x);
    no_loops : Forall (fun l => lp_target l = None /\ loopOk n c l /\ forall i, vis (lp_bucket l) i -> vis c i) (x_loops x);
    no_index : x_loops x <> [] -> forall i, lookup (indexKey i) (x_elems x) = None;
    no_after : forall af, x_after x = Some af ->
      Forall (fun op => In (op_bucket op) (leaves c (bf c)) /\ opSafe o false op
                        /\ readsOk (fun i => vis c i \/ below c p i) op) (af_ops af)
      /\ Forall (fun l => exists i, lp_target l = Some (DSlot (S i)) /\ i < length owners /\ (vis c i \/ below c p i) /\ loopOk n c l
                        /\ forall i, vis (lp_bucket l) i -> vis c i \/ below c p i) (af_loops af)
  }.

  (** Contexts: the whole, and loop bodies. *)
  Inductive ctx : nat -> Prop :=
  | ctx_top : ctx 0
  | ctx_body : forall c k, ctx c -> In (k, bf k) (bodies c (bf c)) -> ctx k.

  Record heapOk : Prop := {
    ho_len : length A = length H;
    ho_node : forall n x c p, nth_error H n = Some x -> nth_error A n = Some (c, p) -> nodeOk n x c p;
    ho_vis : forall c i, vis c i -> c <> 0 /\ exists q, own i 0 q;
    ho_laid : laid T 0 0 (bf 0);
    ho_size : length T = fsize (bf 0)
  }.

  (** ** The trace *)

  (** Slot values as they are once the element [e] of context [k] is read. *)
  Definition sigma (k : nat) (e : cst) (sg : list (option cst)) : list (option cst) :=
    map (fun q => if Nat.eqb (fst (fst q)) k then at_ (snd (fst q)) e else snd q) (combine owners sg).

  Definition asIs (ty : optype) (l r : fastval) : bool := fst (applyOp o ty l r).
  Definition opAlt (g : optype -> fastval -> fastval -> bool) (sv : nat -> outcome fastval) (lit : option fastval) (op : opnode) : bool :=
    match operand o sv (op_lhs op) lit, operand o sv (op_rhs op) lit with Ok (l, _), Ok (r, _) => g (op_op op) l r | _, _ => false end.
  Definition opEv (g : optype -> fastval -> fastval -> bool) (sg : list (option cst)) (lit : option fastval) (op : opnode) : ev :=
    ERep (op_bucket op) (match opResult o (slotVal o root sg) op lit with
                         | Ok (b, false) => b
                         | Ok (_, true) => opAlt g (slotVal o root sg) lit op
                         | _ => false
                         end).
  Lemma opEv_asIs : forall sg lit op b cl, opResult o (slotVal o root sg) op lit = Ok (b, cl) -> opEv asIs sg lit op = ERep (op_bucket op) b.
  Proof.
    intros sg lit op b cl E. unfold opEv. rewrite E. destruct cl; auto. f_equal. unfold opAlt, opResult in *.
    destruct (operand o (slotVal o root sg) (op_lhs op) lit) as [[l m1]| | |]; try discriminate E.
    destruct (operand o (slotVal o root sg) (op_rhs op) lit) as [[r m2]| | |]; try discriminate E. cbn [obind] in E.
    unfold asIs. destruct (m1 || m2); [discriminate|]. destruct (applyOp o (op_op op) l r). cbn. congruence.
  Qed.

  Definition litOf (v : cst) : option fastval := match valOf o v with Ok x => Some x | _ => None end.

  Definition targetArr (sg : list (option cst)) (l : loopnode) : option (list (elt cst)) :=
    match lp_target l with
    | Some (DSlot (S i)) =>
        match (match nth_error sg i with Some (Some w) => w | _ => root end) with
        | CArr es _ => Some es
        | _ => None
        end
    | _ => None
    end.

  Section Trace_of.
  Variable g : optype -> fastval -> fastval -> bool.
  Fixpoint trN (d n : nat) (v : cst) (sg : list (option cst)) {struct d} : list ev :=
    match d with
    | O => []
    | S d' =>
        match nth_error H n with
        | None => []
        | Some x =>
            let loopEv := fun (es : list (elt cst)) (l : loopnode) =>
              ELoop (lp_bucket l) (bf (lp_bucket l)) (lp_mode l)
                (map (fun e => trN d' (lp_node l) (e_v e) (sigma (lp_bucket l) (e_v e) sg)) es) in
            let aft := match x_after x with
                       | None => []
                       | Some af =>
                           flat_map (fun l => match targetArr sg l with Some es => [loopEv es l] | None => [] end) (af_loops af)
                           ++ map (opEv g sg None) (af_ops af)
                       end in
            let ops := map (opEv g sg (litOf v)) (x_ops x) ++ aft in
            let children := flat_map (fun kw => match fst kw with
                                                | Ok key => match lookup key (x_elems x) with
                                                            | Some m => trN d' m (snd kw) sg
                                                            | None => []
                                                            end
                                                | _ => []
                                                end) (items v) in
            match v with
            | CLit _ _ => ops
            | CObj _ _ =>
                match x_elems x with
                | [] => ops
                | _ => children ++ aft ++ match items v with [] => [] | _ => ops end
                end
            | CArr es _ =>
                match x_loops x with
                | [] => children ++ match items v with [] => [] | _ => ops end
                | ls => map (loopEv es) ls ++ ops
                end
            end
        end
    end.

  (** The pieces, under names. *)
  Definition loopEvN (d : nat) (sg : list (option cst)) (es : list (elt cst)) (l : loopnode) : ev :=
    ELoop (lp_bucket l) (bf (lp_bucket l)) (lp_mode l)
      (map (fun e => trN d (lp_node l) (e_v e) (sigma (lp_bucket l) (e_v e) sg)) es).
  Definition aftN (d : nat) (sg : list (option cst)) (x : execnode) : list ev :=
    match x_after x with
    | None => []
    | Some af =>
        flat_map (fun l => match targetArr sg l with Some es => [loopEvN d sg es l] | None => [] end) (af_loops af)
        ++ map (opEv g sg None) (af_ops af)
    end.
  Definition opsN (d : nat) (sg : list (option cst)) (v : cst) (x : execnode) : list ev :=
    map (opEv g sg (litOf v)) (x_ops x) ++ aftN d sg x.
  Definition childN (d : nat) (sg : list (option cst)) (x : execnode) (kw : outcome bytes * cst) : list ev :=
    match fst kw with
    | Ok key => match lookup key (x_elems x) with Some m => trN d m (snd kw) sg | None => [] end
    | _ => []
    end.
  Lemma trN_S : forall d n v sg, trN (S d) n v sg =
    match nth_error H n with
    | None => []
    | Some x =>
        match v with
        | CLit _ _ => opsN d sg v x
        | CObj _ _ =>
            match x_elems x with
            | [] => opsN d sg v x
            | _ => flat_map (childN d sg x) (items v) ++ aftN d sg x ++ match items v with [] => [] | _ => opsN d sg v x end
            end
        | CArr es _ =>
            match x_loops x with
            | [] => flat_map (childN d sg x) (items v) ++ match items v with [] => [] | _ => opsN d sg v x end
            | ls => map (loopEvN d sg es) ls ++ opsN d sg v x
            end
        end
    end.
  Proof. reflexivity. Qed.
  End Trace_of.

  (** ** Conditions on the document along the traversal: the loop elements have all
      the fields that slots of the body refer to; an empty container is only met
      where it is not to be stored. *)
  Definition invisible (x : execnode) (v : cst) : bool :=
    match v with
    | CLit _ _ => false
    | CObj ms _ => match ms, x_elems x with [], _ :: _ => true | _, _ => false end
    | CArr es _ => match es, x_loops x with [], [] => true | _, _ => false end
    end.
  Definition clean (x : execnode) (v : cst) : Prop :=
    invisible x v = true -> x_store x = 0.

  Fixpoint okN (d n : nat) (v : cst) (sg : list (option cst)) {struct d} : Prop :=
    match d with
    | O => True
    | S d' =>
        forall x, nth_error H n = Some x ->
        let okLoop := fun (l : loopnode) (es : list (elt cst)) =>
          forall e, In e es ->
            (forall i r, own i (lp_bucket l) r -> at_ r (e_v e) <> None)
            /\ okN d' (lp_node l) (e_v e) (sigma (lp_bucket l) (e_v e) sg) in
        clean x v
        /\ ((forall op b, In op (x_ops x) -> opResult o (slotVal o root sg) op (litOf v) = Ok (b, true) -> Col)
            /\ forall af op b, x_after x = Some af -> In op (af_ops af) -> opResult o (slotVal o root sg) op None = Ok (b, true) -> Col)
        /\ (forall k w m, In (Ok k, w) (items v) -> lookup k (x_elems x) = Some m -> okN d' m w sg)
        /\ (forall l es wcl, In l (x_loops x) -> v = CArr es wcl -> okLoop l es)
        /\ (forall af l es, x_after x = Some af -> In l (af_loops af) -> targetArr sg l = Some es -> okLoop l es)
    end.
  Definition okLoopN (d : nat) (sg : list (option cst)) (l : loopnode) (es : list (elt cst)) : Prop :=
    forall e, In e es ->
      (forall i r, own i (lp_bucket l) r -> at_ r (e_v e) <> None)
      /\ okN d (lp_node l) (e_v e) (sigma (lp_bucket l) (e_v e) sg).

  (** ** Running events *)
  Hypothesis HO : heapOk.

  Lemma ctx_laid : forall c, ctx c -> exists p, laid T p c (bf c).
  Proof.
    induction 1 as [|c k Hc [p IH] Hk].
    - exists 0. apply HO.
    - eapply laid_body; eauto.
  Qed.
  Lemma ctx_range : forall c, ctx c -> c + fsize (bf c) <= length T.
  Proof. intros c Hc. destruct (ctx_laid c Hc) as [p Hp]. eapply laid_bound; eauto. Qed.

  Definition good (c : nat) (d : sdata) : Prop :=
    length d = length T /\ exists r, INV d r c (bf c) /\ on_atoms r c (bf c).
  Notation wfe c := (Forall (wf_ev c (bf c))).

  Lemma run_ok : forall c d l, ctx c -> good c d -> wfe c l ->
    exists d', runEvs T c l d = Ok d' /\ good c d' /\ same_out d d' c (fsize (bf c))
      /\ (forall j, st d j <> SUnknown -> st d' j = st d j).
  Proof.
    intros c d l Hc (Hl & r & HI & HA) HW. destruct (ctx_laid c Hc) as [p Hp].
    destruct (session_ok l (bf c) T p c d r Hp Hl HI HA HW) as (d' & E & HI' & HA' & SO & KP).
    exists d'. split; [exact E|]. split; [|split; auto]. split; [destruct SO; congruence|eauto].
  Qed.

  Lemma runEvs_app : forall l1 l2 c d, runEvs T c (l1 ++ l2) d = do d1 <- runEvs T c l1 d; runEvs T c l2 d1.
  Proof.
    induction l1 as [|e l1 IH]; intros l2 c d; [reflexivity|]. cbn [app runEvs].
    destruct (runEv T c e d); cbn [obind]; auto.
  Qed.
  Lemma runEvs_1 : forall e c d, runEvs T c [e] d = runEv T c e d.
  Proof. intros. cbn. destruct (runEv T c e d); reflexivity. Qed.

  Lemma good_set : forall c d j, good c d -> st d c <> SUnknown -> c <= j < c + fsize (bf c) -> st d j <> SUnknown.
  Proof. intros c d j (_ & r & HI & _) Hs Hj. apply (INV_allset _ _ _ _ HI Hs j Hj). Qed.

  Lemma run_id : forall c l d, ctx c -> good c d -> st d c <> SUnknown -> wfe c l -> runEvs T c l d = Ok d.
  Proof.
    intros c l d Hc HG Hs HW. induction HW as [|e l He Hl IH]; [reflexivity|]. cbn [runEvs].
    assert (In (fst (den e)) (atoms c (bf c))) as Ha by (eapply wf_den_atom; eauto).
    apply atoms_range in Ha as Hr. pose proof (good_set c d _ HG Hs Hr) as Hk. pose proof (ctx_range c Hc).
    assert (length d = length T) as Hl' by apply HG.
    assert (runEv T c e d = Ok d) as ->; [|exact IH].
    destruct e as [k b|k a m its]; cbn [runEv den fst] in *.
    - unfold tryMark, isResolved. rewrite idx_st by lia. cbn [obind]. destruct (st d k); auto. contradiction.
    - unfold runLoop, isResolved. rewrite idx_st by lia. cbn [obind]. destruct (st d k); auto. contradiction.
  Qed.

  Lemma root_outside : forall c d d', ctx c -> c <> 0 -> same_out d d' c (fsize (bf c)) -> st d' 0 = st d 0.
  Proof. intros c d d' Hc Hn [_ SO]. apply SO. left. lia. Qed.

  Lemma st0 : forall c d, ctx c -> good c d -> isResolved d 0 = Ok (negb (isUnknown (st d 0))).
  Proof.
    intros c d Hc [Hl _]. unfold isResolved. rewrite idx_st; auto. pose proof (ctx_range c Hc). pose proof (fsize_pos (bf c)). lia.
  Qed.

  (** ** Well-formedness of the trace *)
  Lemma node_addr : forall n c p, nth_error A n = Some (c, p) -> exists x, nth_error H n = Some x /\ nodeOk n x c p.
  Proof.
    intros n c p E. assert (n < length H) as Hn by (rewrite <- (ho_len HO); apply nth_error_Some; congruence).
    destruct (nth_error H n) as [x|] eqn:Ex; [|apply nth_error_None in Ex; lia]. exists x. split; auto. now apply (ho_node HO).
  Qed.

  Lemma wf_ops : forall g P c sg lit onNode ops,
    Forall (fun op => In (op_bucket op) (leaves c (bf c)) /\ opSafe o onNode op /\ readsOk P op) ops ->
    wfe c (map (opEv g sg lit) ops).
  Proof. intros g P c sg lit on ops HF. induction HF as [|op l (Hb & _) Hl IH]; cbn; constructor; auto. now constructor. Qed.

  Lemma wf_trace : forall g d n v sg c p, nth_error A n = Some (c, p) -> wfe c (trN g d n v sg).
  Proof.
    intro g. induction d as [|d IH]; intros n v sg c p Ha; [constructor|].
    destruct (node_addr _ _ _ Ha) as (x & Ex & Hx). rewrite trN_S, Ex.
    assert (forall es l, loopOk n c l -> wf_ev c (bf c) (loopEvN g d sg es l)) as WL.
    { intros es l (_ & Hn & Hb). constructor; auto. apply Forall_forall. intros it Hit. apply in_map_iff in Hit as (e & <- & He).
      eapply IH; eauto. }
    assert (wfe c (aftN g d sg x)) as WA.
    { unfold aftN. destruct (x_after x) as [af|] eqn:Ea; [|constructor]. destruct (no_after _ _ _ _ Hx _ Ea) as [HF1 HF2].
      apply Forall_app. split.
      - apply Forall_forall. intros e He. apply in_flat_map in He as (l & Hl & He).
        rewrite Forall_forall in HF2. destruct (HF2 l Hl) as (i & _ & _ & _ & Hok & _).
        destruct (targetArr sg l); [|destruct He]. destruct He as [<-|[]]. auto.
      - eapply wf_ops; eauto. }
    assert (wfe c (opsN g d sg v x)) as WO.
    { apply Forall_app. split; auto. eapply wf_ops. eapply no_ops; eauto. }
    assert (wfe c (flat_map (childN g d sg x) (items v))) as WC.
    { apply Forall_forall. intros e He. apply in_flat_map in He as ([k w] & Hi & He). unfold childN in He. cbn in He.
      destruct k as [k| | |]; try destruct He. destruct (lookup k (x_elems x)) as [m|] eqn:El; [|destruct He].
      apply (no_elems _ _ _ _ Hx) in El as [_ El]. specialize (IH m w sg _ _ El). rewrite Forall_forall in IH. auto. }
    destruct v as [t lx|es wcl|ms wcl]; auto.
    - destruct (x_loops x) as [|l0 ls] eqn:Els.
      + apply Forall_app. split; auto. destruct (items (CArr es wcl)); [constructor|auto].
      + rewrite <- Els. apply Forall_app. split; auto. apply Forall_forall. intros e He. apply in_map_iff in He as (l & <- & Hl).
        pose proof (no_loops _ _ _ _ Hx) as HF. rewrite Forall_forall in HF. apply WL. now apply HF.
    - destruct (x_elems x); auto. apply Forall_app. split; auto. apply Forall_app. split; auto.
      destruct (items (CObj ms wcl)); [constructor|auto].
  Qed.

  (** ** One run against its trace *)

  Definition evt {X} (F : nat -> outcome X) (r : X) : Prop := exists f0, forall f, f0 <= f -> F f = Ok r.

  Definition inv (c : nat) (s : tst) : Prop :=
    ts_stall s = c /\ good c (ts_data s) /\ length (ts_slots s) = length owners /\ st (ts_data s) 0 = SUnknown.

  (** Only slots whose owner's address is in [W] changed. *)
  Definition keep (W : nat -> list bytes -> Prop) (sl sl' : list (option cst)) : Prop :=
    forall i c q, own i c q -> ~ W c q -> nth_error sl' i = nth_error sl i.
  Definition inner (c c' : nat) (q : list bytes) : Prop := c < c' < c + fsize (bf c).
  Definition inAt (c : nat) (p : list bytes) (c' : nat) (q : list bytes) : Prop :=
    inner c c' q \/ (c' = c /\ exists r, q = p ++ r).

  Lemma keep_refl : forall W sl, keep W sl sl.
  Proof. intros W sl i c q _ _. reflexivity. Qed.
  Lemma keep_trans : forall W a b d, keep W a b -> keep W b d -> keep W a d.
  Proof. intros W a b d H1 H2 i c q Ho Hw. rewrite (H2 i c q), (H1 i c q); auto. Qed.
  Lemma keep_sub : forall (W W' : nat -> list bytes -> Prop) a b, (forall c q, W c q -> W' c q) -> keep W a b -> keep W' a b.
  Proof. intros W W' a b HS HK i c q Ho Hw. apply (HK i c q); auto. Qed.

  (** Reports [l]; [m] with the outcomes of comparisons that are not direct replaced. *)
  Record res (W : nat -> list bytes -> Prop) (c : nat) (s : tst) (l m : list ev) (s' : tst) (out : bool) : Prop := {
    rs_run : runEvs T c l (ts_data s) = Ok (ts_data s');
    rs_stall : ts_stall s' = c;
    rs_good : good c (ts_data s');
    rs_len : length (ts_slots s') = length owners;
    rs_keep : keep W (ts_slots s) (ts_slots s');
    rs_out : if out then c = 0 /\ st (ts_data s') 0 <> SUnknown else st (ts_data s') 0 = SUnknown;
    rs_alt : ts_coll s' = false -> runEvs T c m (ts_data s) = Ok (ts_data s');
    rs_mono : ts_coll s = true -> ts_coll s' = true;
    rs_coll : ts_coll s' = true -> ts_coll s = true \/ Col
  }.
  Lemma res_inv : forall W c s l m s', res W c s l m s' false -> inv c s'.
  Proof. intros W c s l m s' []. split; [|split; [|split]]; auto. Qed.
  Lemma res_nil : forall W c s, inv c s -> res W c s [] [] s false.
  Proof. intros W c s (?&?&?&?). constructor; auto. apply keep_refl. Qed.
  Lemma res_seq : forall W c s l1 m1 sa l2 m2 sb out, res W c s l1 m1 sa false -> res W c sa l2 m2 sb out ->
    res W c s (l1 ++ l2) (m1 ++ m2) sb out.
  Proof.
    intros W c s l1 m1 sa l2 m2 sb out [] []. constructor; auto.
    - rewrite runEvs_app, rs_run0. exact rs_run1.
    - eapply keep_trans; eauto.
    - intro Hcl. rewrite runEvs_app, rs_alt0.
      + now apply rs_alt1.
      + destruct (ts_coll sa); auto. now rewrite rs_mono1 in Hcl.
    - intro Hcl. destruct (rs_coll1 Hcl); auto.
  Qed.
  Lemma res_out_seq : forall W c s l1 m1 sa l2 m2, ctx c -> res W c s l1 m1 sa true -> wfe c l2 -> wfe c m2 ->
    res W c s (l1 ++ l2) (m1 ++ m2) sa true.
  Proof.
    intros W c s l1 m1 sa l2 m2 Hc [] HW HW2. constructor; auto.
    - rewrite runEvs_app, rs_run0. cbn [obind]. destruct rs_out0 as [-> ?]. now apply run_id.
    - intro Hcl. rewrite runEvs_app, rs_alt0 by auto. cbn [obind]. destruct rs_out0 as [-> ?]. now apply run_id.
  Qed.
  Lemma res_sub : forall (W W' : nat -> list bytes -> Prop) c s l m s' out, (forall c q, W c q -> W' c q) ->
    res W c s l m s' out -> res W' c s l m s' out.
  Proof. intros W W' c s l m s' out HS []. constructor; auto. eapply keep_sub; eauto. Qed.

  (** After events in context [c] the whole can only be resolved if [c] is the whole. *)
  Lemma res_intro : forall W c s l m s', ctx c -> inv c s -> wfe c l ->
    runEvs T c l (ts_data s) = Ok (ts_data s') -> ts_stall s' = c -> length (ts_slots s') = length owners ->
    keep W (ts_slots s) (ts_slots s') ->
    (ts_coll s' = false -> runEvs T c m (ts_data s) = Ok (ts_data s')) ->
    (ts_coll s = true -> ts_coll s' = true) -> (ts_coll s' = true -> ts_coll s = true \/ Col) ->
    exists out, isResolved (ts_data s') 0 = Ok out /\ res W c s l m s' out.
  Proof.
    intros W c s l m s' Hc (Hs & HG & Hl & H0) HW E E2 E3 HK K1 K2 K3.
    destruct (run_ok c (ts_data s) l Hc HG HW) as (d' & Ed & HG' & SO & _). rewrite E in Ed. inversion Ed; subst d'.
    exists (negb (isUnknown (st (ts_data s') 0))). split; [eapply st0; eauto|].
    destruct (Nat.eq_dec c 0) as [->|Hn].
    - constructor; auto. destruct (st (ts_data s') 0) eqn:X; cbn; auto; split; auto; congruence.
    - pose proof (root_outside c _ _ Hc Hn SO) as X. rewrite H0 in X. rewrite X. cbn. constructor; auto.
  Qed.
  Lemma res_out_eq : forall W c s l m s' out, ctx c -> res W c s l m s' out -> isResolved (ts_data s') 0 = Ok out.
  Proof.
    intros W c s l m s' out Hc []. erewrite st0 by eauto. destruct out.
    - destruct rs_out0 as [_ X]. now destruct (st (ts_data s') 0).
    - now rewrite rs_out0.
  Qed.

  (** ** Operations *)
  Definition agree (P : nat -> Prop) (sl sg : list (option cst)) : Prop := forall i, P i -> nth_error sl i = nth_error sg i.
  Definition sgOk (sg : list (option cst)) : Prop :=
    length sg = length owners /\ forall i w, nth_error sg i = Some (Some w) -> docOk o w.
  Hypothesis HR : docOk o root.

  Lemma idx_nth : forall {X} (l : list X) i y, nth_error l i = Some y -> idx l i = Ok y.
  Proof. intros X l i y E. unfold idx. now rewrite E. Qed.

  Lemma slot_same : forall sl sg i, nth_error sl i = nth_error sg i -> slotVal o root sl (S i) = slotVal o root sg (S i).
  Proof. intros sl sg i E. cbn [slotVal]. unfold idx. now rewrite E. Qed.
  Lemma docOk_val : forall v, docOk o v -> exists x, valOf o v = Ok x.
  Proof. intros v D. now inversion D. Qed.
  Lemma slot_read : forall sg i, sgOk sg -> i < length owners -> exists v, slotVal o root sg (S i) = Ok v.
  Proof.
    intros sg i [Hl HW] Hi. cbn [slotVal]. destruct (nth_error sg i) as [[w|]|] eqn:E.
    - rewrite (idx_nth _ _ _ E). cbn [obind]. apply docOk_val. eauto.
    - rewrite (idx_nth _ _ _ E). cbn [obind]. destruct (docOk_val root HR) as [x ->]. destruct root; eauto.
    - apply nth_error_None in E. lia.
  Qed.

  Lemma ops_run : forall P c sg lit onNode ops s, ctx c -> sgOk sg -> inv c s ->
    (if onNode : bool then lit <> None else lit = None) ->
    agree P (ts_slots s) sg ->
    Forall (fun op => In (op_bucket op) (leaves c (bf c)) /\ opSafe o onNode op /\ readsOk P op) ops ->
    (forall op b, In op ops -> opResult o (slotVal o root sg) op lit = Ok (b, true) -> Col) ->
    exists s' out, tRunOps o T root ops lit s = Ok (s', out)
      /\ res (inner c) c s (map (opEv asIs sg lit) ops) (map (opEv hh sg lit) ops) s' out /\ ts_slots s' = ts_slots s.
  Proof.
    intros P c sg lit onNode ops s Hc Hsg HI Hlit HA HF. revert s HI HA.
    induction HF as [|op ops (Hb & Hsafe & Hrd) Hops IH]; intros s HI HA HCl.
    - exists s, false. split; [reflexivity|]. split; auto. now apply res_nil.
    - cbn [tRunOps map].
      assert (opResult o (slotVal o root (ts_slots s)) op lit = opResult o (slotVal o root sg) op lit) as EQ.
      { apply opResult_ext. intros k Hk. destruct (Hrd k Hk) as (i & -> & Hi & HP). apply slot_same. now apply HA. }
      assert (exists b cl, opResult o (slotVal o root sg) op lit = Ok (b, cl)) as (b & cl & EO).
      { apply Hsafe; auto. intros k Hk. destruct (Hrd k Hk) as (i & -> & Hi & HP). now apply slot_read. }
      assert (wfe c [opEv asIs sg lit op]) as W1 by (constructor; [now constructor|constructor]).
      destruct (run_ok c (ts_data s) [opEv asIs sg lit op] Hc (proj1 (proj2 HI)) W1) as (d' & Ed & _).
      assert (exists sa, tMatchOp o T root op lit s = Ok sa /\ ts_data sa = d' /\ ts_stall sa = c /\ ts_slots sa = ts_slots s
        /\ (ts_coll sa = false -> runEvs T c [opEv hh sg lit op] (ts_data s) = Ok d')
        /\ (ts_coll s = true -> ts_coll sa = true) /\ (ts_coll sa = true -> ts_coll s = true \/ Col))
        as (sa & Ea & Da & Sa & La & K1 & K2 & K3).
      { destruct HI as (Hst & _). rewrite runEvs_1 in Ed |- *. rewrite (opEv_asIs _ _ _ _ _ EO) in Ed. unfold opEv. rewrite EO. cbn [runEv] in Ed |- *.
        unfold tryMark in Ed |- *. unfold tMatchOp. rewrite EQ, EO.
        destruct (isResolved (ts_data s) (op_bucket op)) as [[]| | |]; try discriminate; cbn [obind] in *.
        - inversion Ed. exists s. repeat split; auto.
        - rewrite Hst, Ed. cbn [obind]. eexists. split; [reflexivity|]. destruct cl; cbn [ts_data ts_stall ts_slots ts_coll tSetColl tSetData].
          + repeat split; auto; try discriminate. right. eapply HCl; [now left|exact EO].
          + repeat split; auto. }
      rewrite Ea. cbn [obind].
      destruct (res_intro (inner c) c s [opEv asIs sg lit op] [opEv hh sg lit op] sa Hc HI W1) as (out & Eo & Rs); auto.
      { now rewrite Da. } { rewrite La. apply HI. } { rewrite La. apply keep_refl. } { rewrite Da. exact K1. }
      rewrite Eo. cbn [obind]. destruct out.
      + exists sa, true. split; [reflexivity|]. split; auto. apply (res_out_seq _ _ _ [_] [_]); auto; eapply wf_ops; eauto.
      + destruct (IH sa (res_inv _ _ _ _ _ _ Rs)) as (s' & out & E & Rs' & L').
        { now rewrite La. } { intros op' b' Hop. apply HCl. now right. }
        exists s', out. split; [exact E|]. split; [|congruence]. apply (res_seq _ _ _ [_] [_] sa); auto.
  Qed.

  (** ** The induction on depth *)
  Definition preSlots (c : nat) (p : list bytes) (v : cst) (sg sl : list (option cst)) : Prop :=
    agree (vis c) sl sg
    /\ forall i r, own i c (p ++ r) -> nth_error sg i = Some (at_ r v) /\ (at_ r v = None -> nth_error sl i = nth_error sg i).

  Definition execRun (d : nat) : Prop := forall n v sg c p s,
    nth_error A n = Some (c, p) -> length H <= n + d -> ctx c -> docOk o v -> sgOk sg -> okN d n v sg ->
    inv c s -> preSlots c p v sg (ts_slots s) ->
    exists s' out, evt (fun f => tExec o H T root f v n s) (s', out)
      /\ res (inAt c p) c s (trN asIs d n v sg) (trN hh d n v sg) s' out
      /\ (out = false -> forall i r, own i c (p ++ r) -> nth_error (ts_slots s') i = nth_error sg i).

  Lemma docOk_at : forall p v w, docOk o v -> at_ p v = Some w -> docOk o w.
  Proof.
    induction p as [|k p IH]; intros v w D E; cbn in E; [inversion E; subst; auto|].
    destruct (findItem k (items v)) as [u|] eqn:Eu; [|discriminate]. apply (IH u); auto.
    apply find_some in Eu. apply (in_map snd) in Eu. inversion D as [? _ _ Hs]; subst. exact (Hs u Eu).
  Qed.
  Lemma docOk_elt : forall es wcl e, docOk o (CArr es wcl) -> In e es -> docOk o (e_v e).
  Proof. intros es wcl e D He. inversion D as [? _ _ Hs]; subst. apply Hs. cbn [items]. now apply arr_items_in. Qed.

  Lemma nth_combine : forall {X Y} (l : list X) (m : list Y) i, nth_error (combine l m) i =
    match nth_error l i, nth_error m i with Some x, Some y => Some (x, y) | _, _ => None end.
  Proof.
    induction l as [|x l IH]; intros [|y m] [|i]; cbn; auto. now destruct (nth_error l i). 
  Qed.
  Lemma nth_sigma : forall k e sg i c q, length sg = length owners -> own i c q ->
    nth_error (sigma k e sg) i = if Nat.eqb c k then Some (at_ q e) else nth_error sg i.
  Proof.
    intros k e sg i c q Hl Ho. unfold sigma. rewrite nth_error_map, nth_combine. unfold own in Ho. rewrite Ho.
    assert (i < length sg) as Hi by (rewrite Hl; apply nth_error_Some; congruence).
    destruct (nth_error sg i) as [y|] eqn:E; [|apply nth_error_None in E; lia]. cbn. now destruct (Nat.eqb c k).
  Qed.
  Lemma own_any : forall i, i < length owners -> exists c q, own i c q.
  Proof. intros i Hi. unfold own. destruct (nth_error owners i) as [[c q]|] eqn:E; eauto. apply nth_error_None in E. lia. Qed.
  Lemma sgOk_sigma : forall k e sg, sgOk sg -> docOk o e -> sgOk (sigma k e sg).
  Proof.
    intros k e sg [Hl Hw] De. split.
    - unfold sigma. rewrite map_length, combine_length. lia.
    - intros i w E. assert (i < length owners) as Hi.
      { assert (i < length (sigma k e sg)) by (apply nth_error_Some; congruence).
        unfold sigma in *. rewrite map_length, combine_length in *. lia. }
      destruct (own_any i Hi) as (c & q & Ho). rewrite (nth_sigma _ _ _ _ _ _ Hl Ho) in E.
      destruct (Nat.eqb c k); [|eauto]. inversion E. eapply docOk_at; eauto.
  Qed.

  Lemma evt_bind : forall {X Y} (F : nat -> outcome X) (G : X -> nat -> outcome Y) x y, evt F x -> evt (G x) y ->
    evt (fun f => do z <- F f; G z f) y.
  Proof.
    intros X Y F G x y [f1 H1] [f2 H2]. exists (f1 + f2). intros f Hf. rewrite H1 by lia. cbn. apply H2. lia.
  Qed.
  Lemma evt_S : forall {X} (F : nat -> outcome X) r, evt (fun f => F (S f)) r -> evt F r.
  Proof. intros X F r [f0 Hf]. exists (S f0). intros [|f] Hl; [lia|]. apply Hf. lia. Qed.
  Lemma evt_ok : forall {X} (r : X), evt (fun _ => Ok r) r.
  Proof. intros. exists 0. auto. Qed.
  Lemma evt_const : forall {X} (F : nat -> outcome X) (y : outcome X) r, (forall f, F f = y) -> y = Ok r -> evt F r.
  Proof. intros X F y r E E2. exists 0. intros f _. now rewrite E. Qed.

  Lemma body_facts : forall n c l, ctx c -> loopOk n c l ->
    ctx (lp_bucket l) /\ c < lp_bucket l /\ lp_bucket l + fsize (bf (lp_bucket l)) <= c + fsize (bf c).
  Proof.
    intros n c l Hc (_ & _ & Hb). split; [econstructor; eauto|]. apply bodies_size in Hb. exact Hb.
  Qed.

  Lemma fresh_good : forall k d, ctx k -> length d = length T -> allunk d k (fsize (bf k)) -> good k d.
  Proof.
    intros k d Hk Hd HU. split; auto. exists (fun _ => None). split.
    - apply INV_fresh; auto.
    - intros j Hj Hr. congruence.
  Qed.

  Lemma tIters_S : forall f l es b s, tIters o H T root (S f) l es b s =
    match es with
    | [] => Ok (s, b)
    | e :: r =>
        do d <- resetNode T (ts_data s) (lp_bucket l);
        do (s2, out) <- tExec o H T root f (e_v e) (lp_node l) (tSetData s d);
        if out : bool then Err
        else
          do matched <- isTrue (ts_data s2) (lp_bucket l);
          let '(st', leave) := loopStep (lp_mode l) b matched in
          if leave : bool then Ok (s2, st') else tIters o H T root f l r st' s2
    end.
  Proof. reflexivity. Qed.
  Lemma tLoop_S : forall f l es s, tLoop o H T root (S f) l es s =
    do done <- isResolved (ts_data s) (lp_bucket l);
    if done : bool then Ok s
    else
      do (sa, res) <- tIters o H T root f l es (loopInit (lp_mode l)) (tSetStall s (lp_bucket l));
      do d <- resetNode T (ts_data sa) (lp_bucket l);
      do d2 <- mark T (ts_stall s) d (lp_bucket l) res;
      Ok (tSetData (tSetStall (tSetData sa d) (ts_stall s)) d2).
  Proof. reflexivity. Qed.

  Section Level.
    Variable d : nat.
    Hypothesis IH : execRun d.

    Lemma iters_run : forall n c l sg es b s, ctx c -> loopOk n c l -> length H <= n + S d -> sgOk sg ->
      (forall e, In e es -> docOk o (e_v e)) -> okLoopN d sg l es ->
      ts_stall s = lp_bucket l -> length (ts_data s) = length T -> st (ts_data s) 0 = SUnknown ->
      length (ts_slots s) = length owners -> agree (vis (lp_bucket l)) (ts_slots s) sg ->
      exists s' b', evt (fun f => tIters o H T root f l es b s) (s', b')
        /\ runIters T (lp_bucket l) (lp_mode l)
             (map (fun it => runEvs T (lp_bucket l) it)
                (map (fun e => trN asIs d (lp_node l) (e_v e) (sigma (lp_bucket l) (e_v e) sg)) es)) b (ts_data s)
           = Ok (b', ts_data s')
        /\ length (ts_slots s') = length owners /\ keep (inner c) (ts_slots s) (ts_slots s')
        /\ (ts_coll s' = false -> runIters T (lp_bucket l) (lp_mode l)
             (map (fun it => runEvs T (lp_bucket l) it)
                (map (fun e => trN hh d (lp_node l) (e_v e) (sigma (lp_bucket l) (e_v e) sg)) es)) b (ts_data s)
             = Ok (b', ts_data s'))
        /\ (ts_coll s = true -> ts_coll s' = true) /\ (ts_coll s' = true -> ts_coll s = true \/ Col).
    Proof.
      intros n c l sg es b s Hc Hl Hd Hsg. destruct (body_facts _ _ _ Hc Hl) as (Hk & Hlt & Hle).
      destruct (ctx_laid _ Hk) as (pk & Lk). pose proof (fsize_pos (bf (lp_bucket l))) as Pk.
      revert b s. induction es as [|e es IHe]; intros b s De Hok Hst Hlen H0 Hsl HA.
      - exists s, b. split; [|split; [|split; [|split; [|split; [|split]]]]]; auto.
        + apply evt_S. apply (evt_const _ (Ok (s, b))); reflexivity.
        + apply keep_refl.
      - cbn [map runIters]. destruct (resetNode_spec _ _ _ _ _ Lk Hlen) as (d1 & E1 & S1 & U1).
        rewrite !E1. cbn [obind].
        assert (length d1 = length T) as L1 by (destruct S1; congruence).
        destruct (Hok e (or_introl eq_refl)) as [Hfull Hoke].
        destruct (IH (lp_node l) (e_v e) (sigma (lp_bucket l) (e_v e) sg) (lp_bucket l) [] (tSetData s d1))
          as (s2 & out & Ex & Rs & _); auto.
        + apply Hl.
        + destruct Hl as (? & _). lia.
        + apply De. now left.
        + apply sgOk_sigma; auto. apply De. now left.
        + split; [|split; [|split]]; auto.
          * now apply fresh_good.
          * cbn [ts_data tSetData]. rewrite (proj2 S1); auto. left. lia.
        + split.
          * intros i Hi. cbn. destruct (ho_vis HO _ _ Hi) as (Hn & q & Ho).
            rewrite (nth_sigma _ _ _ _ _ _ (proj1 Hsg) Ho).
            replace (Nat.eqb 0 (lp_bucket l)) with false by (symmetry; apply Nat.eqb_neq; lia). now apply HA.
          * intros i r Ho. cbn [app] in Ho. split.
            -- rewrite (nth_sigma _ _ _ _ _ _ (proj1 Hsg) Ho). now rewrite Nat.eqb_refl.
            -- intro X. exfalso. eapply Hfull; eauto.
        + assert (out = false) as ->.
          { destruct out; auto. destruct Rs. cbn in rs_out0. lia. }
          destruct Rs. cbn [ts_data tSetData] in rs_run0. rewrite rs_run0. cbn [obind].
          assert (keep (inner c) (ts_slots s) (ts_slots s2)) as K2.
          { eapply keep_sub; [|exact rs_keep0]. intros c' q [Hi|[-> _]]; unfold inner in *; lia. }
          assert (length (ts_data s2) = length T) as L2 by apply rs_good0.
          pose proof (ctx_range _ Hk) as RK.
          unfold isTrue. rewrite idx_st by lia. cbn [obind].
          destruct (loopStep (lp_mode l) b (isTrueS (st (ts_data s2) (lp_bucket l)))) as [b2 lv] eqn:El.
          assert (forall F : nat -> outcome (tst * bool), forall r,
            evt (fun f => if lv then Ok (s2, b2) else tIters o H T root f l es b2 s2) r ->
            evt (fun f => tIters o H T root f l (e :: es) b s) r) as X.
          { intros F r [f1 H1]. destruct Ex as [f2 H2]. exists (S (f1 + f2)). intros [|f] Hf; [lia|]. rewrite tIters_S, E1.
            cbn [obind]. rewrite H2 by lia. cbn [obind]. unfold isTrue. rewrite idx_st by lia. cbn [obind]. rewrite El.
            apply H1. lia. }
          assert (ts_coll s2 = false -> runEvs T (lp_bucket l) (trN hh d (lp_node l) (e_v e) (sigma (lp_bucket l) (e_v e) sg)) d1 = Ok (ts_data s2)) as RA
            by exact rs_alt0.
          cbn [ts_coll tSetData] in rs_mono0, rs_coll0.
          destruct lv.
          * exists s2, b2. split; [|split; [|split; [|split; [|split; [|split]]]]]; auto; [apply X; [exact (fun _ => Err)|]; apply evt_ok|].
            intro Hcl. rewrite RA by auto. cbn [obind]. rewrite idx_st by lia. cbn [obind]. now rewrite El.
          * destruct (IHe b2 s2) as (s' & b' & Ev & Er & L' & K' & KA & KM & KC); auto.
            -- intros e' He'. apply De. now right.
            -- intros e' He'. apply Hok. now right.
            -- intros i Hi. rewrite <- (HA i Hi). destruct (ho_vis HO _ _ Hi) as (Hn & q & Ho).
               apply (K2 i 0 q Ho). unfold inner. lia.
            -- exists s', b'. split; [|split; [|split; [|split; [|split; [|split]]]]]; auto.
               ++ apply X; [exact (fun _ => Err)|exact Ev].
               ++ eapply keep_trans; eauto.
               ++ intro Hcl. rewrite RA.
                  ** cbn [obind]. rewrite idx_st by lia. cbn [obind]. rewrite El. now apply KA.
                  ** destruct (ts_coll s2); auto. now rewrite KM in Hcl.
               ++ intro Hcl. destruct (KC Hcl); auto.
    Qed.

    Lemma loop_run : forall n c l sg es s, ctx c -> loopOk n c l -> length H <= n + S d -> sgOk sg ->
      (forall e, In e es -> docOk o (e_v e)) -> okLoopN d sg l es ->
      (forall g, wf_ev c (bf c) (loopEvN g d sg es l)) ->
      inv c s -> agree (vis (lp_bucket l)) (ts_slots s) sg ->
      exists s' out, evt (fun f => tLoop o H T root f l es s) s'
        /\ isResolved (ts_data s') 0 = Ok out /\ res (inner c) c s [loopEvN asIs d sg es l] [loopEvN hh d sg es l] s' out.
    Proof.
      intros n c l sg es s Hc Hl Hd Hsg De Hok Hwf HI HA.
      assert (wfe c [loopEvN asIs d sg es l]) as W1 by (constructor; auto).
      destruct HI as (Hst & HG & Hln & H0). assert (inv c s) as HI by (repeat split; auto; apply HG).
      destruct (run_ok c (ts_data s) _ Hc HG W1) as (d' & Ed & _). pose proof Ed as Ed0.
      rewrite runEvs_1 in Ed. unfold loopEvN in Ed. rewrite runEv_loop in Ed.
      unfold runLoop in Ed. destruct (isResolved (ts_data s) (lp_bucket l)) as [[]| | |] eqn:Er; try discriminate; cbn [obind] in Ed.
      - destruct (res_intro (inner c) c s _ [loopEvN hh d sg es l] s Hc HI W1) as (out & Eo & Rs); auto.
        { rewrite Ed0. congruence. } { apply keep_refl. }
        { intros _. rewrite runEvs_1. unfold loopEvN. rewrite runEv_loop. unfold runLoop. now rewrite Er. }
        exists s, out. split; auto. apply evt_S. apply (evt_const _ (Ok s)); auto. intro f. rewrite tLoop_S, Er. reflexivity.
      - destruct (iters_run n c l sg es (loopInit (lp_mode l)) (tSetStall s (lp_bucket l)))
          as (s2 & b2 & Ev & Eri & L2 & K2 & KA & KM & KC); auto.
        { apply HG. }
        cbn [ts_data tSetStall] in Eri. rewrite Eri in Ed. cbn [obind] in Ed.
        destruct (resetNode T (ts_data s2) (lp_bucket l)) as [d3| | |] eqn:E3; try discriminate. cbn [obind] in Ed.
        set (s' := tSetData (tSetStall (tSetData s2 d3) (ts_stall s)) d').
        destruct (res_intro (inner c) c s _ [loopEvN hh d sg es l] s' Hc HI W1) as (out & Eo & Rs); auto.
        { intro Hcl. rewrite runEvs_1. unfold loopEvN. rewrite runEv_loop. unfold runLoop. rewrite Er. cbn [obind].
          cbn [ts_data tSetStall] in KA. rewrite KA by exact Hcl. cbn [obind]. rewrite E3. cbn [obind]. exact Ed. }
        exists s', out. split; auto. apply evt_S. destruct Ev as [f0 Hf]. exists f0. intros f Hff. rewrite tLoop_S, Er. cbn [obind].
        rewrite Hf by auto. cbn [obind]. rewrite E3. cbn [obind]. unfold s'. rewrite Hst, Ed. reflexivity.
    Qed.

    Lemma tLoops_S : forall f ls es s, tLoops o H T root (S f) ls es s =
      match ls with
      | [] => Ok (s, false)
      | l :: r =>
          match lp_target l with
          | Some _ => Panic
          | None =>
              do sa <- tLoop o H T root f l es s;
              do done <- isResolved (ts_data sa) 0;
              if done : bool then Ok (sa, true) else tLoops o H T root f r es sa
          end
      end.
    Proof. reflexivity. Qed.
    Lemma tAfterLoops_S : forall f ls s, tAfterLoops o H T root (S f) ls s =
      match ls with
      | [] => Ok (s, false)
      | l :: r =>
          match lp_target l with
          | Some (DSlot (S i)) =>
              do v <- idx (ts_slots s) i;
              do sa <-
                match (match v with Some w => w | None => root end) with
                | CArr es _ => tLoop o H T root f l es s
                | _ => match f with O => OutOfFuel | S _ => Ok s end
                end;
              do done <- isResolved (ts_data sa) 0;
              if done : bool then Ok (sa, true) else tAfterLoops o H T root f r sa
          | _ => Panic
          end
      end.
    Proof. reflexivity. Qed.

    Lemma agree_keep : forall c (P : nat -> Prop) sl sl' sg, keep (inner c) sl sl' ->
      (forall i, P i -> exists c' q, own i c' q /\ c' <= c) -> agree P sl sg -> agree P sl' sg.
    Proof.
      intros c P sl sl' sg HK HP HA i Hi. destruct (HP i Hi) as (c' & q & Ho & Hc). rewrite (HK i c' q Ho).
      - now apply HA.
      - unfold inner. lia.
    Qed.
    Lemma vis_own : forall c i, vis c i -> exists c' q, own i c' q /\ c' <= c.
    Proof. intros c i Hv. destruct (ho_vis HO _ _ Hv) as (_ & q & Ho). exists 0, q. split; auto. lia. Qed.
    Lemma reach_own : forall c p i, vis c i \/ below c p i -> exists c' q, own i c' q /\ c' <= c.
    Proof. intros c p i [Hv|(k & r & Ho)]; [now apply vis_own|]. eauto. Qed.

    Lemma wf_loopEv : forall g n c sg es l, loopOk n c l -> wf_ev c (bf c) (loopEvN g d sg es l).
    Proof.
      intros g n c sg es l (_ & Hn & Hb). constructor; auto. apply Forall_forall. intros it Hit.
      apply in_map_iff in Hit as (e & <- & He). eapply wf_trace; eauto.
    Qed.

    Lemma loops_run : forall n c sg es ls s, ctx c -> length H <= n + S d -> sgOk sg ->
      (forall e, In e es -> docOk o (e_v e)) ->
      Forall (fun l => lp_target l = None /\ loopOk n c l /\ forall i, vis (lp_bucket l) i -> vis c i) ls ->
      (forall l, In l ls -> okLoopN d sg l es) ->
      inv c s -> agree (vis c) (ts_slots s) sg ->
      exists s' out, evt (fun f => tLoops o H T root f ls es s) (s', out)
        /\ res (inner c) c s (map (loopEvN asIs d sg es) ls) (map (loopEvN hh d sg es) ls) s' out.
    Proof.
      intros n c sg es ls s Hc Hd Hsg De HF. revert s.
      induction HF as [|l ls (Ht & Hl & Hv) Hls IHl]; intros s Hok HI HA.
      - exists s, false. split; [|now apply res_nil]. apply evt_S. apply (evt_const _ (Ok (s, false))); reflexivity.
      - destruct (loop_run n c l sg es s) as (sa & out & Ev & Eo & Rs); auto.
        { apply Hok. now left. } { intro; eapply wf_loopEv; eauto. } { intros i Hi. apply HA. auto. }
        cbn [map]. change (loopEvN asIs d sg es l :: map (loopEvN asIs d sg es) ls) with ([loopEvN asIs d sg es l] ++ map (loopEvN asIs d sg es) ls).
        change (loopEvN hh d sg es l :: map (loopEvN hh d sg es) ls) with ([loopEvN hh d sg es l] ++ map (loopEvN hh d sg es) ls).
        destruct out.
        + exists sa, true. split.
          * apply evt_S. destruct Ev as [f0 Hf]. exists f0. intros f Hff. rewrite tLoops_S, Ht, Hf by auto. cbn [obind].
            rewrite Eo. reflexivity.
          * apply res_out_seq; auto; apply Forall_forall; intros e He; apply in_map_iff in He as (l' & <- & Hl');
            rewrite Forall_forall in Hls; eapply wf_loopEv; apply Hls; auto.
        + destruct (IHl sa) as (s' & out & Ev' & Rs').
          { intros l' Hl'. apply Hok. now right. } { eapply res_inv; eauto. }
          { eapply agree_keep; [apply Rs|apply vis_own|auto]. }
          exists s', out. split; [|eapply res_seq; eauto].
          apply evt_S. destruct Ev as [f0 Hf], Ev' as [f1 Hf1]. exists (f0 + f1). intros f Hff.
          rewrite tLoops_S, Ht, Hf by lia. cbn [obind]. rewrite Eo. cbn [obind]. apply Hf1. lia.
    Qed.

    Definition aftLoopEvs g (sg : list (option cst)) (l : loopnode) : list ev :=
      match targetArr sg l with Some es => [loopEvN g d sg es l] | None => [] end.

    Lemma aloops_run : forall n c p sg ls s, ctx c -> length H <= n + S d -> sgOk sg ->
      Forall (fun l => exists i, lp_target l = Some (DSlot (S i)) /\ i < length owners /\ (vis c i \/ below c p i) /\ loopOk n c l
                        /\ forall i, vis (lp_bucket l) i -> vis c i \/ below c p i) ls ->
      (forall l es, In l ls -> targetArr sg l = Some es -> okLoopN d sg l es) ->
      inv c s -> agree (fun i => vis c i \/ below c p i) (ts_slots s) sg ->
      exists s' out, evt (fun f => tAfterLoops o H T root f ls s) (s', out)
        /\ res (inner c) c s (flat_map (aftLoopEvs asIs sg) ls) (flat_map (aftLoopEvs hh sg) ls) s' out.
    Proof.
      intros n c p sg ls s Hc Hd Hsg HF. revert s.
      induction HF as [|l ls (i & Ht & Hi & Hp & Hl & Hv) Hls IHl]; intros s Hok HI HA.
      - exists s, false. split; [|now apply res_nil]. apply evt_S. apply (evt_const _ (Ok (s, false))); reflexivity.
      - cbn [flat_map].
        assert (exists y, nth_error sg i = Some y) as (y & Ey).
        { destruct (nth_error sg i) eqn:E; eauto. apply nth_error_None in E. destruct Hsg. lia. }
        assert (idx (ts_slots s) i = Ok y) as Ei by (apply idx_nth; rewrite (HA i Hp); auto).
        assert (exists sa out, evt (fun f => match (match y with Some w => w | None => root end) with
                | CArr es _ => tLoop o H T root f l es s
                | _ => match f with O => OutOfFuel | S _ => Ok s end
                end) sa /\ isResolved (ts_data sa) 0 = Ok out /\ res (inner c) c s (aftLoopEvs asIs sg l) (aftLoopEvs hh sg l) sa out) as (sa & out & Ev & Eo & Rs).
        { assert (docOk o (match y with Some w => w | None => root end)) as Dy.
          { destruct y as [w|]; auto. destruct Hsg as [_ Hw]. eauto. }
          assert (targetArr sg l = match (match y with Some w => w | None => root end) with CArr es _ => Some es | _ => None end) as Eta.
          { unfold targetArr. rewrite Ht, Ey. now destruct y. }
          unfold aftLoopEvs. rewrite Eta.
          destruct (match y with Some w => w | None => root end) as [t x|es wcl|ms wcl];
            try (exists s, false; split; [exists 1; intros [|f] Hf; [lia|reflexivity]|];
                 split; [eapply (res_out_eq (inner c)); eauto; now apply res_nil|now apply res_nil]).
          apply (loop_run n c l sg es s); auto.
          - intros e He. eapply docOk_elt; eauto.
          - apply Hok; [now left|auto].
          - intro; eapply wf_loopEv; eauto.
          - intros j Hj. apply HA. auto. }
        destruct out.
        + exists sa, true. split.
          * apply evt_S. destruct Ev as [f0 Hf]. exists f0. intros f Hff. rewrite tAfterLoops_S, Ht, Ei. cbn [obind].
            rewrite Hf by auto. cbn [obind]. rewrite Eo. reflexivity.
          * apply res_out_seq; auto; apply Forall_forall; intros e He; apply in_flat_map in He as (l' & Hl' & He);
            rewrite Forall_forall in Hls; destruct (Hls l' Hl') as (_ & _ & _ & _ & Hlo & _);
            unfold aftLoopEvs in He; (destruct (targetArr sg l'); [|destruct He]); destruct He as [<-|[]]; eapply wf_loopEv; eauto.
        + destruct (IHl sa) as (s' & out & Ev' & Rs').
          { intros l' es' Hl'. apply Hok. now right. } { eapply res_inv; eauto. }
          { eapply agree_keep; [apply Rs|apply reach_own|auto]. }
          exists s', out. split; [|eapply res_seq; eauto].
          apply evt_S. destruct Ev as [f0 Hf], Ev' as [f1 Hf1]. exists (f0 + f1). intros f Hff.
          rewrite tAfterLoops_S, Ht, Ei. cbn [obind]. rewrite Hf by lia. cbn [obind]. rewrite Eo. cbn [obind]. apply Hf1. lia.
    Qed.

    (** The work deferred to after a node's members, given as an option. *)
    Definition tAft (f : nat) (x : execnode) (s : tst) : outcome (tst * bool) :=
      match x_after x with None => Ok (s, false) | Some af => tAfter o H T root f af s end.

    Lemma aft_run : forall n x c p sg s, nodeOk n x c p -> ctx c -> length H <= n + S d -> sgOk sg ->
      (forall af l es, x_after x = Some af -> In l (af_loops af) -> targetArr sg l = Some es -> okLoopN d sg l es) ->
      (forall af op b, x_after x = Some af -> In op (af_ops af) -> opResult o (slotVal o root sg) op None = Ok (b, true) -> Col) ->
      inv c s -> agree (fun i => vis c i \/ below c p i) (ts_slots s) sg ->
      exists s' out, evt (fun f => tAft f x s) (s', out)
        /\ res (inner c) c s (aftN asIs d sg x) (aftN hh d sg x) s' out.
    Proof.
      intros n x c p sg s Hx Hc Hd Hsg Hok HCl HI HA. unfold tAft, aftN. destruct (x_after x) as [af|] eqn:Ea.
      - destruct (no_after _ _ _ _ Hx _ Ea) as [HF1 HF2].
        destruct (aloops_run n c p sg (af_loops af) s) as (sa & out & Ev & Rs); eauto.
        change (flat_map (fun l => match targetArr sg l with Some es => [loopEvN asIs d sg es l] | None => [] end) (af_loops af))
          with (flat_map (aftLoopEvs asIs sg) (af_loops af)).
        change (flat_map (fun l => match targetArr sg l with Some es => [loopEvN hh d sg es l] | None => [] end) (af_loops af))
          with (flat_map (aftLoopEvs hh sg) (af_loops af)).
        destruct out.
        + exists sa, true. split.
          * apply evt_S. destruct Ev as [f0 Hf]. exists f0. intros f Hff. rewrite tAfter_S, Hf by auto. reflexivity.
          * apply res_out_seq; auto; eapply wf_ops; eauto.
        + destruct (ops_run (fun i => vis c i \/ below c p i) c sg None false (af_ops af) sa Hc Hsg (res_inv _ _ _ _ _ _ Rs) eq_refl)
            as (s' & out & Eo & Rs' & _); auto.
          { eapply agree_keep; [apply Rs|apply reach_own|auto]. } { intros op b Hop. exact (HCl af op b eq_refl Hop). }
          exists s', out. split; [|eapply res_seq; eauto].
          apply evt_S. destruct Ev as [f0 Hf]. exists f0. intros f Hff. rewrite tAfter_S, Hf by auto. cbn [obind]. exact Eo.
      - exists s, false. split; [apply evt_ok|now apply res_nil].
    Qed.

    (** Once the whole is resolved the deferred work does nothing. *)
    Lemma aft_skip : forall n x p s, nodeOk n x 0 p -> good 0 (ts_data s) -> st (ts_data s) 0 <> SUnknown ->
      length (ts_slots s) = length owners ->
      exists b, evt (fun f => tAft f x s) (s, b).
    Proof.
      intros n x p s Hx HG Hs Hl. unfold tAft. destruct (x_after x) as [af|] eqn:Ea; [|exists false; apply evt_ok].
      destruct (no_after _ _ _ _ Hx _ Ea) as [HF1 HF2].
      assert (isResolved (ts_data s) 0 = Ok true) as E0.
      { rewrite (st0 0 _ ctx_top HG). now destruct (st (ts_data s) 0). }
      assert (forall k, k < fsize (bf 0) -> isResolved (ts_data s) k = Ok true) as ER.
      { intros k Hk. unfold isResolved. pose proof (ctx_range 0 ctx_top). destruct HG as [Hd HG'].
        rewrite idx_st by lia. cbn [obind]. assert (st (ts_data s) k <> SUnknown) as X.
        { eapply good_set; eauto; [split; eauto|lia]. }
        now destruct (st (ts_data s) k). }
      destruct (af_loops af) as [|l ls] eqn:El.
      - destruct (af_ops af) as [|op ops] eqn:Eo.
        + exists false. exists 2. intros [|[|f]] Hf; try lia. rewrite tAfter_S, El, Eo. reflexivity.
        + exists true. exists 2. intros [|[|f]] Hf; try lia. rewrite tAfter_S, El, Eo. cbn [tAfterLoops obind].
          cbn [tRunOps]. unfold tMatchOp. inversion HF1 as [|? ? (Hb & _) _]; subst.
          apply leaves_atoms, atoms_range in Hb. rewrite ER by lia. cbn [obind]. rewrite E0. reflexivity.
      - exists true. inversion HF2 as [|? ? (i & Ht & Hi & _ & Hlo & _) _]; subst.
        exists 4. intros f Hf. destruct f as [|[|[|[|f]]]]; try lia. rewrite tAfter_S, El, tAfterLoops_S, Ht.
        assert (exists y, idx (ts_slots s) i = Ok y) as (y & ->).
        { unfold idx. destruct (nth_error (ts_slots s) i) eqn:E; eauto. apply nth_error_None in E. lia. }
        cbn [obind].
        destruct (body_facts _ _ _ ctx_top Hlo) as (_ & _ & Hle). pose proof (fsize_pos (bf (lp_bucket l))).
        destruct (match y with Some w => w | None => root end) as [t xx|es wcl|ms wcl]; cbn [obind];
          try (rewrite E0; reflexivity).
        rewrite tLoop_S, ER by lia. cbn [obind]. rewrite E0. reflexivity.
    Qed.

    (** Operations at a node, deferred work, storing. *)
    Definition tTail (f : nat) (x : execnode) (v : cst) (s : tst) : outcome (tst * bool) :=
      do lit <- valOf o v;
      do (sa, ret) <- tRunOps o T root (x_ops x) (Some lit) s;
      if ret : bool then Ok (sa, true)
      else
        do (sb, ret) <-
          match x_after x with
          | None => Ok (sa, false)
          | Some af =>
              do (sb, _) <- tAfter o H T root f af sa;
              do done <- isResolved (ts_data sb) 0;
              Ok (sb, done)
          end;
        if ret : bool then Ok (sb, true)
        else do sc <- tStore x v sb; Ok (sc, false).

    Lemma tExec_T : forall f v n s, tExec o H T root (S f) v n s =
      do x <- idx H n;
      match v with
      | CLit _ _ => tTail f x v s
      | CObj _ _ =>
          match x_elems x with
          | [] => tTail f x v s
          | _ =>
              do (sa, ret, out) <- tOA o H T root f (items v) x true s;
              do (s2, _) <- tAft f x sa;
              if ret : bool then match isResolved (ts_data s2) 0 with
                                 | Ok done => if implb out done then Ok (s2, done) else Err
                                 | _ => Err
                                 end
              else do done <- isResolved (ts_data s2) 0;
                   if done : bool then Ok (s2, true) else tTail f x v s2
          end
      | CArr es _ =>
          match x_loops x with
          | [] =>
              do (sa, ret, out) <- tOA o H T root f (items v) x true s;
              if ret : bool then Ok (sa, out) else tTail f x v sa
          | ls =>
              do (sa, out) <- tLoops o H T root f ls es s;
              if out : bool then Ok (sa, true) else tTail f x v sa
          end
      end.
    Proof. reflexivity. Qed.

    Lemma inner_inAt : forall c p c' q, inner c c' q -> inAt c p c' q.
    Proof. intros. now left. Qed.
    Lemma nth_upd : forall {X} (l : list X) i x j, i < length l ->
      nth_error (upd l i x) j = if Nat.eqb j i then Some x else nth_error l j.
    Proof.
      induction l as [|y l IHl]; intros i x j Hi; cbn in Hi; [lia|].
      destruct i as [|i], j as [|j]; cbn; auto. rewrite IHl by lia. reflexivity.
    Qed.

    Lemma tail_run : forall n x c p v sg s, nodeOk n x c p -> ctx c -> length H <= n + S d -> sgOk sg -> docOk o v ->
      (forall af l es, x_after x = Some af -> In l (af_loops af) -> targetArr sg l = Some es -> okLoopN d sg l es) ->
      (forall af op b, x_after x = Some af -> In op (af_ops af) -> opResult o (slotVal o root sg) op None = Ok (b, true) -> Col) ->
      inv c s -> agree (fun i => vis c i \/ below c p i) (ts_slots s) sg ->
      (forall i, own i c p -> nth_error sg i = Some (Some v)) ->
      (forall op b, In op (x_ops x) -> opResult o (slotVal o root sg) op (litOf v) = Ok (b, true) -> Col) ->
      exists s' out, evt (fun f => tTail f x v s) (s', out)
        /\ res (inAt c p) c s (opsN asIs d sg v x) (opsN hh d sg v x) s' out
        /\ (out = false -> forall i r, own i c (p ++ r) -> nth_error (ts_slots s') i = nth_error sg i).
    Proof.
      intros n x c p v sg s Hx Hc Hd Hsg Dv Hok HCa HI HA Hown HCl. destruct (docOk_val v Dv) as (lit & Elit).
      unfold opsN, litOf. unfold litOf in HCl. rewrite Elit in *.
      destruct (ops_run (vis c) c sg (Some lit) true (x_ops x) s Hc Hsg HI) as (sa & out & Eo & Rs & Ls).
      { discriminate. } { intros i Hi. apply HA. now left. } { apply Hx. } { exact HCl. }
      assert (forall g, wfe c (aftN g d sg x)) as WA.
      { intro g. unfold aftN. destruct (x_after x) as [af|] eqn:Ea; [|constructor]. destruct (no_after _ _ _ _ Hx _ Ea) as [HF1 HF2].
        apply Forall_app. split; [|eapply wf_ops; eauto].
        apply Forall_forall. intros e He. apply in_flat_map in He as (l & Hl & He).
        rewrite Forall_forall in HF2. destruct (HF2 l Hl) as (i & _ & _ & _ & Hlo & _).
        destruct (targetArr sg l); [|destruct He]. destruct He as [<-|[]]. eapply wf_loopEv; eauto. }
      destruct out.
      - exists sa, true. split; [|split; [|discriminate]].
        + exists 0. intros f _. unfold tTail. rewrite Elit. cbn [obind]. rewrite Eo. reflexivity.
        + apply res_out_seq; auto. eapply res_sub; [apply inner_inAt|exact Rs].
      - destruct (aft_run n x c p sg sa) as (sb & out & Ev & Rs'); auto.
        { eapply res_inv; eauto. } { now rewrite Ls. }
        assert (evt (fun f => match x_after x with
          | None => Ok (sa, false)
          | Some af =>
              do (sb, _) <- tAfter o H T root f af sa;
              do done <- isResolved (ts_data sb) 0;
              Ok (sb, done)
          end) (sb, out)) as Ev2.
        { pose proof (res_out_eq _ _ _ _ _ _ _ Hc Rs') as Eb. unfold tAft in Ev. destruct (x_after x); auto.
          destruct Ev as [f0 Hf]. exists f0. intros f Hff. rewrite Hf by auto. cbn [obind]. now rewrite Eb. }
        pose proof (res_seq _ _ _ _ _ _ _ _ _ _ Rs Rs') as R2.
        destruct out.
        + exists sb, true. split; [|split; [|discriminate]].
          * destruct Ev2 as [f0 Hf]. exists f0. intros f Hff. unfold tTail. rewrite Elit. cbn [obind]. rewrite Eo. cbn [obind].
            rewrite Hf by auto. reflexivity.
          * eapply res_sub; [apply inner_inAt|exact R2].
        + assert (agree (fun i => vis c i \/ below c p i) (ts_slots sb) sg) as HAb.
          { eapply agree_keep; [apply R2|apply reach_own|auto]. }
          assert (exists sc, tStore x v sb = Ok sc /\ ts_data sc = ts_data sb /\ ts_coll sc = ts_coll sb /\ ts_stall sc = ts_stall sb
            /\ length (ts_slots sc) = length (ts_slots sb) /\ keep (inAt c p) (ts_slots sb) (ts_slots sc)
            /\ (forall i r, own i c (p ++ r) -> nth_error (ts_slots sc) i = nth_error sg i)) as (sc & Es & D1 & D0 & D2 & D3 & D4 & D5).
          { unfold tStore. destruct (x_store x) as [|i] eqn:Est.
            - exists sb. repeat split; auto.
              intros i [|k r] Ho; [|apply HAb; right; now exists k, r].
              rewrite app_nil_r in Ho. apply (no_owner _ _ _ _ Hx) in Ho. congruence.
            - pose proof (no_store _ _ _ _ Hx _ Est) as Ho.
              assert (i < length (ts_slots sb)) as Hi.
              { rewrite (rs_len _ _ _ _ _ _ _ R2). apply nth_error_Some. unfold own in Ho. congruence. }
              assert (exists y, idx (ts_slots sb) i = Ok y) as (y & ->).
              { unfold idx. destruct (nth_error (ts_slots sb) i) eqn:E; eauto. apply nth_error_None in E. lia. }
              cbn [obind]. eexists. split; [reflexivity|]. cbn [ts_data ts_stall ts_slots ts_coll tSetSlots].
              split; [auto|]. split; [auto|]. split; [auto|]. split; [apply upd_length|]. split.
              + intros j c' q Hj Hw. rewrite nth_upd by auto. destruct (Nat.eqb_spec j i) as [->|]; auto.
                exfalso. apply Hw. unfold own in *. rewrite Ho in Hj. inversion Hj; subst. right. split; auto. exists []. now rewrite app_nil_r.
              + intros j r Hj. rewrite nth_upd by auto. destruct (Nat.eqb_spec j i) as [->|Hne].
                * unfold own in *. symmetry. now apply Hown.
                * destruct r as [|k r]; [|apply HAb; right; now exists k, r].
                  rewrite app_nil_r in Hj. apply (no_owner _ _ _ _ Hx) in Hj. congruence. }
          exists sc, false. split; [|split; [|auto]].
          * destruct Ev2 as [f0 Hf]. exists f0. intros f Hff. unfold tTail. rewrite Elit. cbn [obind]. rewrite Eo. cbn [obind].
            rewrite Hf by auto. cbn [obind]. rewrite Es. reflexivity.
          * destruct R2. constructor; rewrite ?D0, ?D1; try congruence; auto.
            -- eapply keep_trans; [|exact D4]. eapply keep_sub; [apply inner_inAt|exact rs_keep0].
    Qed.

    Definition ret_of (out first : bool) (its : list (outcome bytes * cst)) : bool :=
      out || (first && match its with [] => true | _ => false end).

    Lemma children_run : forall n x c p v sg, nodeOk n x c p -> ctx c -> length H <= n + S d -> sgOk sg ->
      forall its ks first s, map fst its = map Ok ks -> NoDup ks ->
      (forall k w, In (Ok k, w) its -> findItem k (items v) = Some w /\ docOk o w) ->
      (forall k w m, In (Ok k, w) its -> lookup k (x_elems x) = Some m -> okN d m w sg) ->
      inv c s -> agree (vis c) (ts_slots s) sg ->
      (forall i k r, own i c (p ++ k :: r) -> nth_error sg i = Some (at_ (k :: r) v)
         /\ (at_ (k :: r) v = None -> nth_error (ts_slots s) i = nth_error sg i)
         /\ (~ In k ks -> nth_error (ts_slots s) i = nth_error sg i)) ->
      exists s' out, evt (fun f => tOA o H T root f its x first s) (s', ret_of out first its, out)
        /\ res (inAt c p) c s (flat_map (childN asIs d sg x) its) (flat_map (childN hh d sg x) its) s' out
        /\ (out = false -> agree (vis c) (ts_slots s') sg)
        /\ (out = false -> forall i k r, own i c (p ++ k :: r) -> nth_error (ts_slots s') i = nth_error sg i).
    Proof.
      intros n x c p v sg Hx Hc Hd Hsg.
      induction its as [|[ko w] its IHi]; intros ks first s Ek ND Hf Hok HI HA Hsl.
      - destruct ks; [|discriminate]. exists s, false. split; [|split; [now apply res_nil|split; auto]].
        + apply evt_S. apply (evt_const _ (Ok (s, first, false))); [reflexivity|]. unfold ret_of. cbn. now rewrite andb_true_r.
        + intros _ i k r Ho. apply (Hsl i k r); auto.
      - destruct ks as [|k ks]; [discriminate|]. cbn in Ek. inversion Ek as [[E1 E2]]. subst ko. inversion ND as [|? ? Hnk ND']; subst.
        destruct (Hf k w (or_introl eq_refl)) as [Hfk Dw].
        cbn [flat_map]. unfold childN at 1 3. cbn [fst snd].
        destruct (lookup k (x_elems x)) as [m|] eqn:El.
        + destruct (no_elems _ _ _ _ Hx _ _ El) as [Hnm Ha].
          destruct (IH m w sg c (p ++ [k]) s Ha) as (sa & out & Ev & Rs & Hpost); auto; [lia|eapply Hok; [now left|auto]| |].
          { split; auto. intros i r Ho. rewrite <- app_assoc in Ho. cbn [app] in Ho. destruct (Hsl i k r Ho) as (Q1 & Q2 & _).
            cbn [at_] in Q1, Q2. rewrite Hfk in Q1, Q2. auto. }
          assert (forall c' q, inAt c (p ++ [k]) c' q -> inAt c p c' q) as WS.
          { intros c' q [Q|(-> & r & ->)]; [now left|]. right. split; auto. exists (k :: r). now rewrite <- app_assoc. }
          pose proof (res_out_eq _ _ _ _ _ _ _ Hc Rs) as Eo.
          destruct out.
          * exists sa, true. split; [|split; [|split; discriminate]].
            -- apply evt_S. destruct Ev as [f0 Hf0]. exists f0. intros f Hff. rewrite tOA_S. cbn [obind]. rewrite El, Hf0 by auto.
               cbn [obind]. rewrite Eo. reflexivity.
            -- assert (forall g, wfe c (flat_map (childN g d sg x) its)) as WC.
               { intro g. apply Forall_forall. intros e He. apply in_flat_map in He as ([k2 w2] & Hi2 & He). unfold childN in He. cbn in He.
                 destruct k2 as [k2| | |]; try destruct He. destruct (lookup k2 (x_elems x)) as [m2|] eqn:El2; [|destruct He].
                 apply (no_elems _ _ _ _ Hx) in El2 as [_ El2]. pose proof (wf_trace g d m2 w2 sg _ _ El2) as X.
                 rewrite Forall_forall in X. auto. }
               apply res_out_seq; auto. eapply res_sub; [exact WS|exact Rs].
          * destruct (IHi ks false sa) as (s' & out & Ev' & Rs' & P1 & P2); auto.
            -- intros k' w' Hi'. apply Hf. now right.
            -- intros k' w' m' Hi'. apply Hok. now right.
            -- eapply res_inv; eauto.
            -- intros i Hi. rewrite <- (HA i Hi). destruct (ho_vis HO _ _ Hi) as (Hn0 & q & Ho).
               apply (rs_keep _ _ _ _ _ _ _ Rs i 0 q Ho). intros [Q|(Q & _)]; unfold inner in *; lia.
            -- intros i k' r Ho. destruct (Hsl i k' r Ho) as (Q1 & Q2 & Q3). split; auto.
               destruct (list_eq_dec N.eq_dec k' k) as [->|Hne].
               ++ assert (nth_error (ts_slots sa) i = nth_error sg i) as X.
                  { apply Hpost with (r := r); auto. now rewrite <- app_assoc. }
                  auto.
               ++ assert (nth_error (ts_slots sa) i = nth_error (ts_slots s) i) as X.
                  { apply (rs_keep _ _ _ _ _ _ _ Rs i c _ Ho). intros [Q|(_ & r2 & Q)]; [unfold inner in Q; lia|].
                    rewrite <- app_assoc in Q. apply app_inv_head in Q. cbn in Q. congruence. }
                  rewrite X. split; auto. intro Hni. apply Q3. intros [Q|Q]; congruence.
            -- exists s', out. split; [|split; [|split; auto]].
               ++ apply evt_S. destruct Ev as [f0 Hf0], Ev' as [f1 Hf1]. exists (f0 + f1). intros f Hff. rewrite tOA_S. cbn [obind].
                  rewrite El, Hf0 by lia. cbn [obind]. rewrite Eo. cbn [obind]. rewrite Hf1 by lia.
                  unfold ret_of. cbn. now rewrite andb_false_r.
               ++ eapply res_seq; [eapply res_sub; [exact WS|exact Rs]|exact Rs'].
        + destruct (IHi ks false s) as (s' & out & Ev' & Rs' & P1 & P2); auto.
          * intros k' w' Hi'. apply Hf. now right.
          * intros k' w' m' Hi'. apply Hok. now right.
          * intros i k' r Ho. destruct (Hsl i k' r Ho) as (Q1 & Q2 & Q3). split; auto. split; auto.
            intro Hni. apply Q3. intros [Q|Q]; [|contradiction]. subst k'. now apply (no_below _ _ _ _ Hx) in Ho.
          * exists s', out. split; [|split; [exact Rs'|split; auto]].
            apply evt_S. destruct Ev' as [f1 Hf1]. exists f1. intros f Hff. rewrite tOA_S. cbn [obind].
            rewrite El, Hf1 by lia. unfold ret_of. cbn. now rewrite andb_false_r.
    Qed.

    Lemma arr_find : forall es i k w, findItem k (arrItems i es) = Some w -> exists j, k = indexKey j.
    Proof.
      induction es as [|e es IHs]; intros i k w E; cbn [arrItems findItem] in E; [discriminate|].
      destruct (bytes_eqb k (indexKey i)) eqn:Eb; [apply bytes_eqb_eq in Eb; eauto|eauto].
    Qed.

    (** The members of an object, or the elements of an array. *)
    Lemma items_run : forall n v sg c p s x,
      nth_error A n = Some (c, p) -> nth_error H n = Some x -> length H <= n + S d -> ctx c -> docOk o v -> sgOk sg -> okN (S d) n v sg ->
      inv c s -> preSlots c p v sg (ts_slots s) ->
      exists s' out, evt (fun f => tOA o H T root f (items v) x true s) (s', ret_of out true (items v), out)
        /\ res (inAt c p) c s (flat_map (childN asIs d sg x) (items v)) (flat_map (childN hh d sg x) (items v)) s' out
        /\ (out = false -> agree (vis c) (ts_slots s') sg)
        /\ (out = false -> forall i k r, own i c (p ++ k :: r) -> nth_error (ts_slots s') i = nth_error sg i).
    Proof.
      intros n v sg c p s x Ha Ex Hd Hc Dv Hsg Hok HI [HA Hpre].
      destruct (node_addr _ _ _ Ha) as (x' & Ex' & Hx). rewrite Ex in Ex'. injection Ex' as <-.
      cbn [okN] in Hok. destruct (Hok x Ex) as (Hcl & (HCo & HCa) & Hokc & Hokl & Hoka). clear Hok.
      inversion Dv as [? _ (ks & Eks & ND) Hsub]; subst.
      apply (children_run n x c p v sg Hx Hc Hd Hsg (items v) ks true s Eks ND); auto.
      - intros k w Hi. split; [eapply find_in; eauto|]. apply Hsub. apply (in_map snd) in Hi. exact Hi.
      - intros i k r Ho. destruct (Hpre i (k :: r) Ho) as [Q1 Q2]. split; auto. split; auto.
        intro Hni. apply Q2. cbn [at_]. destruct (findItem k (items v)) as [w|] eqn:Ef; auto.
        exfalso. apply Hni. apply find_some in Ef. apply (in_map fst) in Ef. rewrite Eks in Ef.
        apply in_map_iff in Ef as (k2 & E2 & H2). cbn in E2. inversion E2; subst. exact H2.
    Qed.

    Lemma exec_run : execRun (S d).
    Proof.
      intros n v sg c p s Ha Hd Hc Dv Hsg Hok HI [HA Hpre].
      destruct (node_addr _ _ _ Ha) as (x & Ex & Hx). rewrite !trN_S, Ex.
      pose proof Hok as Hok'. cbn [okN] in Hok. destruct (Hok x Ex) as (Hcl & (HCo & HCa) & Hokc & Hokl & Hoka). clear Hok.
      assert (idx H n = Ok x) as Ei by now apply idx_nth.
      assert (forall i, own i c p -> nth_error sg i = Some (Some v)) as Hown.
      { intros i Ho. destruct (Hpre i []) as [Q _]; [now rewrite app_nil_r|]. exact Q. }
      assert (forall i k r, own i c (p ++ k :: r) -> at_ (k :: r) v = None -> nth_error (ts_slots s) i = nth_error sg i) as Habs.
      { intros i k r Ho Q. destruct (Hpre i (k :: r) Ho) as [_ X]. auto. }
      (* the plain tail, when no slot below this node can be set *)
      assert ((forall i k r, own i c (p ++ k :: r) -> at_ (k :: r) v = None) ->
        exists s' out, evt (fun f => tTail f x v s) (s', out)
        /\ res (inAt c p) c s (opsN asIs d sg v x) (opsN hh d sg v x) s' out
        /\ (out = false -> forall i r, own i c (p ++ r) -> nth_error (ts_slots s') i = nth_error sg i)) as Plain.
      { intro Hnone. apply (tail_run n); auto. intros i [Hv|(k & r & Ho)]; auto. eapply Habs; eauto. }
      assert (WC : (forall g, wfe c (aftN g d sg x)) /\ (forall g, wfe c (opsN g d sg v x))).
      { enough (forall g, wfe c (aftN g d sg x) /\ wfe c (opsN g d sg v x)) as X by (split; intro; apply X). intro g.
        pose proof (wf_trace g (S d) n (CLit TNull []) sg c p Ha) as W. rewrite trN_S, Ex in W.
        unfold opsN in W. apply Forall_app in W as [W1 W2]. split; auto. apply Forall_app. split; auto.
        eapply wf_ops. apply Hx. }
      destruct WC as [WA WO].
      inversion Dv as [? _ (ks & Eks & ND) Hsub]; subst.
      assert (Hch : exists s' out, evt (fun f => tOA o H T root f (items v) x true s) (s', ret_of out true (items v), out)
        /\ res (inAt c p) c s (flat_map (childN asIs d sg x) (items v)) (flat_map (childN hh d sg x) (items v)) s' out
        /\ (out = false -> agree (vis c) (ts_slots s') sg)
        /\ (out = false -> forall i k r, own i c (p ++ k :: r) -> nth_error (ts_slots s') i = nth_error sg i)).
      { now apply (items_run n v sg c p s x). }
      destruct v as [t lx|es wcl|ms wcl].
      - destruct Plain as (s' & out & Ev & Rs & Hp); [reflexivity|].
        exists s', out. split; auto. apply evt_S. destruct Ev as [f0 Hf]. exists f0. intros f Hff. rewrite tExec_T, Ei. cbn [obind]. auto.
      - destruct (x_loops x) as [|l0 ls] eqn:Els.
        + destruct Hch as (sa & out & Ev & Rs & Pv & Pb). destruct out.
          * exists sa, true. split; [|split; [|discriminate]].
            -- apply evt_S. destruct Ev as [f0 Hf]. exists f0. intros f Hff. rewrite tExec_T, Ei. cbn [obind]. rewrite Els. rewrite Hf by auto. reflexivity.
            -- apply res_out_seq; auto; (destruct (items (CArr es wcl)); [constructor|auto]).
          * destruct (items (CArr es wcl)) as [|it its] eqn:Eit.
            -- exists sa, false. split; [|split].
               ++ apply evt_S. destruct Ev as [f0 Hf]. exists f0. intros f Hff. rewrite tExec_T, Ei. cbn [obind]. rewrite Els, Eit. rewrite Hf by auto. reflexivity.
               ++ rewrite !app_nil_r. exact Rs.
               ++ intros _ i [|k r] Ho; [|eapply Pb; eauto]. rewrite app_nil_r in Ho. apply (no_owner _ _ _ _ Hx) in Ho.
                  unfold clean, invisible in Hcl. rewrite Els in Hcl. destruct es; [|discriminate].
                  specialize (Hcl eq_refl). congruence.
            -- destruct (tail_run n x c p (CArr es wcl) sg sa) as (s' & out & Ev2 & Rs2 & Hp); auto.
               { eapply res_inv; eauto. }
               { intros i [Hv|(k & r & Ho)]; [now apply Pv|eapply Pb; eauto]. }
               exists s', out. split; [|split; [eapply res_seq; eauto|auto]].
               apply evt_S. destruct Ev as [f0 Hf], Ev2 as [f1 Hf1]. exists (f0 + f1). intros f Hff.
               rewrite tExec_T, Ei. cbn [obind]. rewrite Els, Eit. rewrite Hf by lia. cbn. apply Hf1. lia.
        + rewrite <- Els in *.
          assert (x_loops x <> []) as Hne by (rewrite Els; discriminate).
          destruct (loops_run n c sg es (x_loops x) s) as (sa & out & Ev & Rs); auto.
          { intros e He. eapply docOk_elt; eauto. } { apply Hx. } { intros l Hl. exact (Hokl l es wcl Hl eq_refl). }
          destruct out.
          * exists sa, true. split; [|split; [|discriminate]].
            -- apply evt_S. destruct Ev as [f0 Hf]. exists f0. intros f Hff. rewrite tExec_T, Ei. cbn [obind]. rewrite Els in Hf |- *. rewrite Hf by auto. reflexivity.
            -- apply res_out_seq; auto. eapply res_sub; [apply inner_inAt|exact Rs].
          * assert (agree (fun i => vis c i \/ below c p i) (ts_slots sa) sg) as HAa.
            { eapply agree_keep; [apply Rs|apply reach_own|]. intros i [Hv|(k & r & Ho)]; auto. eapply Habs; eauto.
              cbn [at_]. destruct (findItem k (items (CArr es wcl))) as [w|] eqn:Ef; auto. cbn [items] in Ef.
              apply arr_find in Ef as (j & ->). exfalso. eapply (no_below _ _ _ _ Hx); eauto. now apply (no_index _ _ _ _ Hx). }
            destruct (tail_run n x c p (CArr es wcl) sg sa) as (s' & out & Ev2 & Rs2 & Hp); auto.
            { eapply res_inv; eauto. }
            exists s', out. split; [|split; auto].
            -- apply evt_S. destruct Ev as [f0 Hf], Ev2 as [f1 Hf1]. exists (f0 + f1). intros f Hff.
               rewrite tExec_T, Ei. cbn [obind]. rewrite Els in Hf |- *. rewrite Hf by lia. cbn [obind]. apply Hf1. lia.
            -- eapply res_seq; [eapply res_sub; [apply inner_inAt|exact Rs]|exact Rs2].
      - destruct (x_elems x) as [|el els] eqn:Eel.
        + destruct Plain as (s' & out & Ev & Rs & Hp).
          { intros i k r Ho. apply (no_below _ _ _ _ Hx) in Ho. rewrite Eel in Ho. contradiction. }
          exists s', out. split; auto. apply evt_S. destruct Ev as [f0 Hf]. exists f0. intros f Hff. rewrite tExec_T, Ei. cbn [obind]. rewrite Eel. auto.
        + rewrite <- Eel in *.
          assert (forall X (F G : X), match x_elems x with [] => F | _ :: _ => G end = G) as EL.
          { intros X F G. rewrite Eel. reflexivity. }
          clear Plain.
          destruct Hch as (sa & out & Ev & Rs & Pv & Pb). destruct out.
          * destruct Rs as [R1 R2 R3 R4 R5 [-> R6] R7 R8 R9].
            destruct (aft_skip n x p sa Hx R3 R6 R4) as (b & Ev2).
            assert (isResolved (ts_data sa) 0 = Ok true) as E0.
            { rewrite (st0 0 _ ctx_top R3). now destruct (st (ts_data sa) 0). }
            exists sa, true. split; [|split; [|discriminate]].
            -- apply evt_S. destruct Ev as [f0 Hf], Ev2 as [f1 Hf1]. exists (f0 + f1). intros f Hff. rewrite tExec_T, Ei. cbn [obind].
               rewrite EL, Hf by lia. cbn [obind]. rewrite Hf1 by lia. cbn [obind]. cbn [ret_of orb]. rewrite E0. reflexivity.
            -- apply res_out_seq; auto; [constructor; auto| |]; (apply Forall_app; split; auto;
               destruct (items (CObj ms wcl)); [constructor|auto]).
          * assert (agree (fun i => vis c i \/ below c p i) (ts_slots sa) sg) as HAa.
            { intros i [Hv|(k & r & Ho)]; [now apply Pv|eapply Pb; eauto]. }
            destruct (aft_run n x c p sg sa) as (sb & out & Ev2 & Rs2); auto.
            { eapply res_inv; eauto. }
            assert (agree (fun i => vis c i \/ below c p i) (ts_slots sb) sg) as HAb.
            { eapply agree_keep; [apply Rs2|apply reach_own|auto]. }
            pose proof (res_out_eq _ _ _ _ _ _ _ Hc Rs2) as Eo.
            pose proof (res_seq _ _ _ _ _ _ _ _ _ _ Rs (res_sub _ _ _ _ _ _ _ _ (inner_inAt c p) Rs2)) as R2.
            rewrite !app_assoc.
            destruct out.
            -- exists sb, true. split; [|split; [|discriminate]].
               ++ apply evt_S. destruct Ev as [f0 Hf], Ev2 as [f1 Hf1]. exists (f0 + f1). intros f Hff. rewrite tExec_T, Ei. cbn [obind].
                  rewrite EL, Hf by lia. cbn [obind]. rewrite Hf1 by lia. cbn [obind]. rewrite Eo.
                  destruct (ret_of false true (items (CObj ms wcl))); reflexivity.
               ++ apply res_out_seq; auto; (destruct (items (CObj ms wcl)); [constructor|auto]).
            -- destruct (items (CObj ms wcl)) as [|it its] eqn:Eit.
               ++ exists sb, false. split; [|split].
                  ** apply evt_S. destruct Ev as [f0 Hf], Ev2 as [f1 Hf1]. exists (f0 + f1). intros f Hff. rewrite tExec_T, Ei. cbn [obind].
                     rewrite EL, Eit, Hf by lia. cbn [obind]. rewrite Hf1 by lia. cbn [obind]. rewrite Eo. reflexivity.
                  ** rewrite !app_nil_r. exact R2.
                  ** intros _ i [|k r] Ho; [|apply HAb; right; now exists k, r].
                     rewrite app_nil_r in Ho. apply (no_owner _ _ _ _ Hx) in Ho.
                     unfold clean, invisible in Hcl. rewrite Eel in Hcl. destruct ms; [|discriminate].
                     specialize (Hcl eq_refl). congruence.
               ++ destruct (tail_run n x c p (CObj ms wcl) sg sb) as (s' & out & Ev3 & Rs3 & Hp); auto.
                  { eapply res_inv; eauto. }
                  exists s', out. split; [|split; [eapply res_seq; eauto|auto]].
                  apply evt_S. destruct Ev as [f0 Hf], Ev2 as [f1 Hf1], Ev3 as [f2 Hf2]. exists (f0 + f1 + f2). intros f Hff.
                  rewrite tExec_T, Ei. cbn [obind]. rewrite EL, Eit, Hf by lia. cbn [obind]. rewrite Hf1 by lia. cbn [obind].
                  rewrite Eo. cbn. apply Hf2. lia.
    Qed.
  End Level.

  Lemma exec_all : forall d, execRun d.
  Proof.
    induction d as [|d IHd]; [|now apply exec_run]. intros n v sg c p s Ha Hd. exfalso.
    assert (n < length A) by (apply nth_error_Some; congruence). rewrite (ho_len HO) in *. lia.
  Qed.
End Trace.
