(** A compiled program satisfies the conditions under which its execution is
    described by the trace of PTrace.v. *)
From Verif Require Import Base MTokenizer SJson MLit MFastVal MMath SFormula SEvents SMerge MBinTree MSession MExpr SCompile MTransform SFilter
  MMatcher MTree SDoc SSat PBinTree PSession PTree PTrace PExpr PPlace PFun PSites.
From Coq Require Import List NArith ZArith Arith Lia Bool.
Import ListNotations.
Open Scope nat_scope.

Lemma merge_sites : forall gs g k, sitesMerge k g gs = sitesChain 0 k (g :: gs).
Proof.
  induction gs as [|e gs IH]; intros g k; [reflexivity|]. rewrite chain_cons, <- IH. reflexivity.
Qed.
Lemma merged_atoms : forall gs g k,
  leaves k (merged (structure g) (map structure gs)) = leaves k (structure (XOr (g :: gs)))
  /\ bodies k (merged (structure g) (map structure gs)) = bodies k (structure (XOr (g :: gs)))
  /\ fsize (merged (structure g) (map structure gs)) = fsize (structure (XOr (g :: gs))).
Proof.
  induction gs as [|e gs IH]; intros g k; [auto|].
  change (structure (XOr (g :: e :: gs))) with (FOr (structure g) (structure (XOr (e :: gs)))).
  cbn [map merged leaves bodies fsize]. destruct (IH e (S k + fsize (structure g))) as (-> & -> & ->). auto.
Qed.

Section Heap.
  Variable o : oracles.
  Variables (g : expr) (gs : list expr).
  Let E := XOr (g :: gs).
  Let SS := sites 0 0 E.
  Hypothesis HC : compilable o 0 E.
  Hypothesis HG : regular (pathsOf 0 E) 0 E.
  Variable H : list execnode.
  Variable ns : nat.
  Variables A ow : list addr.
  Hypothesis HK : compiled o g gs H ns A ow.
  Variable T : list node.
  Hypothesis HT : laid T 0 0 (structures g gs).
  Hypothesis HL : length T = fsize (structures g gs).

  Lemma SS_merge : sitesMerge 0 g gs = SS.
  Proof. unfold SS, E. now rewrite sites_or, merge_sites. Qed.

  (** ** Contexts *)
  (** [c] is the body [b] of a loop over variable [v]. *)
  Definition bodyAt (c v : nat) (b : expr) : Prop :=
    exists c0 k0 m i, In (Site c0 k0 (XLoop m v i b)) SS /\ c = S k0.

  Lemma bodyAt_fun : forall c v b v' b', bodyAt c v b -> bodyAt c v' b' -> v = v' /\ b = b'.
  Proof.
    intros c v b v' b' (c0 & k0 & m & i & I & ->) (c1 & k1 & m1 & i1 & I1 & Ek). inversion Ek; subst k1.
    destruct (site_unique _ _ _ _ _ _ _ _ I I1) as [_ X]. inversion X; auto.
  Qed.

  Definition bf (c : nat) : form :=
    match c with
    | O => structures g gs
    | S k0 =>
        match find (fun s => match s with Site _ k (XLoop _ _ _ _) => Nat.eqb k k0 | _ => false end) SS with
        | Some (Site _ _ (XLoop _ _ _ b)) => structure b
        | _ => FLeaf
        end
    end.
  Lemma bf_body : forall c v b, bodyAt c v b -> bf c = structure b.
  Proof.
    intros c v b (c0 & k0 & m & i & I & ->). cbn [bf].
    destruct (find _ SS) as [[c1 k1 e1]|] eqn:Ef.
    - apply find_some in Ef as [I1 X]. destruct e1; try discriminate. apply Nat.eqb_eq in X. subst k1.
      destruct (site_unique _ _ _ _ _ _ _ _ I I1) as [_ Y]. inversion Y; auto.
    - eapply find_none in Ef; eauto. cbn in Ef. now rewrite Nat.eqb_refl in Ef.
  Qed.

  (** What holds of a site. *)
  Record facts (c cv : nat) (P : list (list bytes)) (b : expr) : Prop := {
    fa_comp : compilable o cv b;
    fa_reg : regular P cv b;
    fa_zero : c = 0 <-> cv = 0
  }.
  (** Context [c], with variable [cv], paths [P] and body [b]. *)
  Inductive ctxAt : nat -> nat -> list (list bytes) -> expr -> Prop :=
  | ctxAt_top : ctxAt 0 0 (pathsOf 0 E) E
  | ctxAt_body : forall c v b, bodyAt c v b -> ctxAt c v (pathsOf v b) b.

  Let inh cv e := compilable o cv e /\ exists P, regular P cv e.
  Lemma inh_d : forall cv e e', inh cv e -> In e' (direct e) -> inh cv e'.
  Proof. intros cv e e' [H1 [P H2]] Hd. split; [eapply direct_compilable; eauto|exists P; eapply direct_regular; eauto]. Qed.
  Lemma inh_l : forall cv m v i b, inh cv (XLoop m v i b) -> inh v b.
  Proof.
    intros cv m v i b [H1 [P H2]]. cbn [compilable] in H1. destruct H1 as (Hv & (q & -> & _) & Hc). split; auto.
    cbn [regular] in H2. exists (pathsOf v b). tauto.
  Qed.

  Lemma inh_top : inh 0 E.
  Proof. split; [exact HC|]. exists (pathsOf 0 E). exact HG. Qed.

  Lemma body_facts : forall c v b, bodyAt c v b -> c <> 0 /\ v <> 0 /\ compilable o v b /\ regular (pathsOf v b) v b.
  Proof.
    intros c v b (c0 & k0 & m & i & I & ->). split; [discriminate|].
    destruct (site_inherit inh inh_d inh_l E 0 0 0 inh_top (le_n 0) _ _ _ I) as [(_ & Hi)|(? & ? & ? & cv & ? & ? & _ & _ & _ & Hi)];
      destruct Hi as [H1 [P H2]]; cbn [compilable] in H1; destruct H1 as (Hv & (q & -> & _) & Hc); cbn [regular] in H2; tauto.
  Qed.

  Lemma ctx_facts : forall c cv P b, ctxAt c cv P b -> facts c cv P b.
  Proof.
    intros c cv P b [|c' v b' HB]; [constructor; auto; tauto|].
    destruct (body_facts _ _ _ HB) as (H1 & H2 & H3 & H4). constructor; auto; tauto.
  Qed.

  Lemma ctx_fun : forall c cv P b cv' P' b', ctxAt c cv P b -> ctxAt c cv' P' b' -> cv = cv' /\ P = P' /\ b = b'.
  Proof.
    intros c cv P b cv' P' b' H1 H2. inversion H1; subst; inversion H2; subst; auto.
    - match goal with X : bodyAt 0 _ _ |- _ => apply body_facts in X; tauto end.
    - match goal with X : bodyAt 0 _ _ |- _ => apply body_facts in X; tauto end.
    - match goal with X : bodyAt c _ _, Y : bodyAt c _ _ |- _ => destruct (bodyAt_fun _ _ _ _ _ X Y); subst; auto end.
  Qed.

  (** Every site is a direct part of the body of its context. *)
  Lemma site_ctx : forall c k e, In (Site c k e) SS -> exists cv P b, ctxAt c cv P b /\ In e (direct b) /\ atIn k e c (bf c)
    /\ In (Site c k e) (sites c c b).
  Proof.
    intros c k e HI. destruct (site_shape _ _ _ _ _ _ HI) as [_ [(-> & D & HA)|(c0 & k0 & m & v & i & b & L1 & -> & L3)]].
    - exists 0, (pathsOf 0 E), E. split; [constructor|]. split; auto. split; auto. cbn [bf].
      destruct (merged_atoms gs g 0) as (X1 & X2 & _). unfold structures. fold E in X1, X2.
      destruct e; cbn [atIn] in *; rewrite ?X1, ?X2; auto.
    - exists v, (pathsOf v b), b. assert (bodyAt (S k0) v b) as HB by (exists c0, k0, m, i; auto).
      split; [now constructor|]. rewrite (bf_body _ _ _ HB). destruct (site_direct _ _ _ _ _ (le_n _) L3) as [D1 D2]. auto.
  Qed.
  Lemma site_in : forall c k e cv P b, In (Site c k e) SS -> ctxAt c cv P b ->
    In e (direct b) /\ compilable o cv e /\ regular P cv e /\ incl (frefs e) (frefs b).
  Proof.
    intros c k e cv P b HI HX. destruct (site_ctx _ _ _ HI) as (cv' & P' & b' & HX' & D & _).
    destruct (ctx_fun _ _ _ _ _ _ _ HX HX') as (<- & <- & <-). destruct (ctx_facts _ _ _ _ HX).
    split; auto. split; [eapply direct_compilable; eauto|]. split; [eapply direct_regular; eauto|now apply direct_frefs].
  Qed.

  Lemma bodies_ctx : forall c k m v i b, In (Site c k (XLoop m v i b)) SS -> In (S k, bf (S k)) (bodies c (bf c)).
  Proof.
    intros c k m v i b HI. destruct (site_ctx _ _ _ HI) as (cv & P & b' & HX & D & HA & _). cbn [atIn] in HA.
    rewrite (bf_body (S k) v b); auto. exists c, k, m, i. auto.
  Qed.

  (** Paths below the current context. *)
  Lemma roots_of : forall e cv f, compilable o cv e -> (exists a, e = XExists a) \/ (exists k l r, e = XCmp k l r) -> In f (frefs e) -> fst f = 0 \/ fst f = cv.
  Proof.
    intros e cv f Hc [(a & ->)|(k & l & r & ->)] Hf; cbn [compilable frefs] in *.
    - destruct Hc as [Hc _]. eapply operand_roots; eauto.
    - destruct Hc as (H1 & H2 & _). apply in_app_iff in Hf as [Hf|Hf]; [apply (operand_roots o l)|apply (operand_roots o r)]; auto.
  Qed.
  Lemma cx_is : forall c cv P b r, ctxAt c cv P b -> r = 0 \/ r = cv -> Nat.eqb (cx r c) c = Nat.eqb r cv.
  Proof.
    intros c cv P b r HX Hr. destruct (ctx_facts _ _ _ _ HX) as [_ _ Z]. unfold cx.
    destruct Hr as [->| ->]; cbn [Nat.eqb].
    - destruct c, cv; auto; [destruct Z as [Z _]|destruct Z as [_ Z]]; specialize (Z eq_refl); discriminate.
    - rewrite Nat.eqb_refl. destruct (Nat.eqb_spec cv 0) as [->|]; [|apply Nat.eqb_refl].
      destruct Z as [_ Z]. rewrite Z; auto.
  Qed.
  Lemma curp_is : forall c cv P b k e, In (Site c k e) SS -> ctxAt c cv P b -> (exists a, e = XExists a) \/ (exists kk l r, e = XCmp kk l r) ->
    curp c e = pathsOf cv e.
  Proof.
    intros c cv P b k e HI HX Hk. destruct (site_in _ _ _ _ _ _ HI HX) as (_ & Hc & _). unfold curp, pathsOf. f_equal.
    apply filter_ext_in. intros f Hf. eapply cx_is; eauto. eapply roots_of; eauto.
  Qed.

  (** ** Slots of the document a loop body may read *)
  Definition vis (c i : nat) : Prop := exists v b q, bodyAt c v b /\ In q (pathsOf 0 b) /\ nth_error ow i = Some (0, q).

  Lemma in_paths : forall v e q, In (v, q) (frefs e) <-> In q (pathsOf v e).
  Proof.
    intros v e q. unfold pathsOf. rewrite in_map_iff. split.
    - intro HI. exists (v, q). split; auto. apply filter_In. split; auto. cbn. apply Nat.eqb_refl.
    - intros ([v' q'] & Eq & HI). apply filter_In in HI as [HI Hv]. cbn in *. apply Nat.eqb_eq in Hv. now subst.
  Qed.

  (** ** Operands *)
  Lemma dref_total : forall c base sv lit, (base = None \/ lit <> None) -> forall e d, drefOf o ow c base e d -> funsOk e ->
    (forall s, In s (drefSlots d) -> exists v, sv s = Ok v) -> exists x, resolveParam o sv d lit = Ok x.
  Proof.
    intros c base sv lit Hb.
    induction e as [| |gg|sa|sa|sa|a IH|l IH|l IH|r p|n l IH|m v i s IHi IHs|a IH|a IH|k l r IHl IHr] using expr_ind'; intros d HD HF HS;
      try (destruct HD as (x & _ & ->); cbn; eauto; fail).
    - cbn [drefOf] in HD. destruct HD as [(-> & Hbase & _)|(_ & i & -> & Ho)]; cbn [resolveParam].
      + destruct Hb as [Hb|Hb]; [congruence|]. destruct lit; [eauto|contradiction].
      + apply HS. now left.
    - apply drefOf_func in HD as (ds & -> & HA). apply funsOk_func in HF as [HN HF]. cbn [resolveParam].
      assert (forall x y, In x l -> forall d, drefOf o ow c base x d -> y = d -> In d ds -> exists z, resolveParam o sv d lit = Ok z) as X.
      { intros x y Hx d Hd _ Hin. rewrite Forall_forall in IH. apply (IH x Hx d Hd).
        - clear -HF Hx. induction l as [|z l IHl]; [destruct Hx|]. destruct HF, Hx as [<-|Hx]; auto.
        - intros s Hs. apply HS. cbn. apply in_flat_map. eauto. }
      destruct HN as [[HN Hlen]|[HN Hlen]].
      + destruct (unary_total n HN) as (f & -> & Hf). destruct l as [|x l]; [cbn in Hlen; lia|].
        destruct ds as [|d ds]; [destruct HA|]. destruct HA as [HA _].
        destruct (X x d (or_introl eq_refl) d HA eq_refl (or_introl eq_refl)) as [z ->]. cbn [obind]. apply Hf.
      + destruct (binary_total n HN) as (f & -> & Hf). destruct l as [|x [|y l]]; try (cbn in Hlen; lia).
        destruct ds as [|d [|d2 ds]]; try (destruct HA as [? HA]); try (destruct HA; fail). destruct HA as [HA2 _].
        destruct (X x d (or_introl eq_refl) d) as [z ->]; auto; [now left|]. cbn [obind].
        destruct (X y d2 (or_intror (or_introl eq_refl)) d2) as [z2 ->]; auto; [now right; left|]. cbn [obind]. apply Hf.
  Qed.
  Lemma odref_total : forall c base sv lit e d, (base = None \/ lit <> None) -> odrefOf o ow c base e d -> funsOk e ->
    (forall s, In s (odrefSlots d) -> exists v, sv s = Ok v) -> exists x, operand o sv d lit = Ok x.
  Proof.
    intros c base sv lit e d Hb HD HF HS.
    assert (forall d', d = Some d' -> drefOf o ow c base e d' -> exists x, operand o sv d lit = Ok x) as X.
    { intros d' -> HD'. cbn [operand]. destruct (dref_total c base sv lit Hb e d' HD' HF HS) as [x ->]. cbn. eauto. }
    destruct e; cbn [odrefOf] in HD; try (destruct HD as (d' & -> & HD); apply (X d'); auto; fail).
    destruct HD as [(-> & _)|(H1 & i & -> & Ho)]; [cbn; eauto|]. apply (X (DSlot (S i))); auto. right. eauto.
  Qed.

  (** The slots an operand reads. *)
  Lemma dref_slots : forall c base e d s, drefOf o ow c base e d -> In s (drefSlots d) ->
    exists i root q, s = S i /\ In (root, q) (frefs e) /\ nth_error ow i = Some (cx root c, q) /\ ~ (base = Some q /\ cx root c = c).
  Proof.
    intros c base.
    induction e as [| |gg|sa|sa|sa|a IH|l IH|l IH|r p|n l IH|m v i s IHi IHs|a IH|a IH|k l r IHl IHr] using expr_ind'; intros d x HD Hs;
      try (destruct HD as (y & _ & ->); destruct Hs; fail).
    - cbn [drefOf] in HD. destruct HD as [(-> & _)|(H1 & i & -> & Ho)]; [destruct Hs|]. destruct Hs as [<-|[]].
      exists i, r, p. cbn. auto.
    - apply drefOf_func in HD as (ds & -> & HA). cbn [drefSlots] in Hs. apply in_flat_map in Hs as (d & Hd & Hs).
      assert (exists y, In y l /\ drefOf o ow c base y d) as (y & Hy & HD).
      { clear -HA Hd. revert ds HA Hd. induction l as [|z l IHl]; intros [|d0 ds] HA Hd; try destruct Hd; try destruct HA.
        - subst. exists z. split; [now left|auto].
        - destruct (IHl ds) as (y & X1 & X2); auto. exists y. split; [now right|auto]. }
      rewrite Forall_forall in IH. destruct (IH y Hy d x HD Hs) as (i & root & q & H1 & H2 & H3 & H4).
      exists i, root, q. repeat split; auto. cbn [frefs]. apply in_flat_map. eauto.
  Qed.
  Lemma odref_slots : forall c base e d s, odrefOf o ow c base e d -> In s (odrefSlots d) ->
    exists i root q, s = S i /\ In (root, q) (frefs e) /\ nth_error ow i = Some (cx root c, q) /\ ~ (base = Some q /\ cx root c = c).
  Proof.
    intros c base e d s HD Hs.
    destruct e; cbn [odrefOf] in HD; try (destruct HD as (d' & -> & HD); eapply dref_slots; eauto; fail).
    destruct HD as [(-> & _)|(H1 & i & -> & Ho)]; [destruct Hs|]. destruct Hs as [<-|[]]. exists i, root, path. cbn. auto.
  Qed.

  (** An operation of a site reads slots it can rely on. *)
  Lemma op_reads : forall c k e n aft p a d s, In (Site c k e) SS -> nth_error A n = Some (c, p) -> baseSpec (curp c e) aft p ->
    (exists a, e = XExists a) \/ (exists kk l r, e = XCmp kk l r) ->
    incl (frefs a) (frefs e) -> odrefOf o ow c (baseOf aft p) a d -> In s (odrefSlots d) ->
    exists i, s = S i /\ i < length ow /\ (vis c i \/ (aft = true /\ below ow c p i)).
  Proof.
    intros c k e n aft p a d s HI HA HB Hk Hin HD Hs.
    destruct (odref_slots _ _ _ _ _ HD Hs) as (i & root & q & -> & HR & Ho & Hn).
    exists i. split; auto. split; [eapply nth_lt; eauto|].
    destruct (site_ctx _ _ _ HI) as (cv & P & b & HX & _). apply Hin in HR.
    destruct (site_in _ _ _ _ _ _ HI HX) as (_ & Hc & _ & Hf).
    destruct (Nat.eq_dec (cx root c) c) as [Ec|Ec].
    - right. assert (In q (curp c e)) as Hq.
      { unfold curp. apply in_map_iff. exists (root, q). split; auto. apply filter_In. split; auto. cbn. now apply Nat.eqb_eq. }
      destruct aft; cbn [baseSpec baseOf] in *.
      + split; auto. destruct HB as [HB _]. destruct (HB q Hq) as (kk & r & ->). exists kk, r. rewrite Ec in Ho. exact Ho.
      + exfalso. apply Hn. destruct HB as [HB _]. rewrite (HB q Hq). auto.
    - left. assert (root = 0) as ->. { unfold cx in Ec. destruct (Nat.eqb_spec root 0); auto. congruence. }
      cbn in Ho, Ec. inversion HX as [|c' v b' HBd]; subst; [congruence|].
      exists cv, b, q. split; auto. split; auto. apply in_paths. auto.
  Qed.

  Lemma nth_own : forall i c q, own ow i c q -> vis c i -> c <> 0.
  Proof. intros i c q _ (v & b & q' & HB & _). apply body_facts in HB. tauto. Qed.

  Lemma op_site : forall n aft op c p, itemIn H n aft (IOp op) -> nth_error A n = Some (c, p) ->
    In (op_bucket op) (leaves c (bf c)) /\ opSafe o (negb aft) op /\ readsOk ow (fun i => vis c i \/ (aft = true /\ below ow c p i)) op.
  Proof.
    intros n aft op c p HI HA. destruct (cd_items _ _ _ _ _ _ _ HK _ _ _ HI) as ([c' k e] & HS & p' & HA' & HP).
    rewrite HA in HA'. inversion HA'; subst c' p'. clear HA'. rewrite SS_merge in HS.
    destruct (site_ctx _ _ _ HS) as (cv & P & b & HX & D & HAt & _). destruct (site_in _ _ _ _ _ _ HS HX) as (_ & Hc & Hr & Hf).
    destruct e; try contradiction.
    - exfalso. destruct e1; try contradiction. destruct HP as (_ & _ & n' & tg & X & _). discriminate.
    - destruct HP as (HB & d & HD & Eq). inversion Eq; subst op. clear Eq. cbn [op_bucket atIn] in *. split; auto.
      cbn [regular] in Hr. split.
      + intros sv lit Hl Hs. unfold opResult. cbn [op_lhs op_rhs op_op].
        destruct (odref_total c (baseOf aft p) sv lit e d) as [[x m1] ->]; auto.
        { destruct aft; cbn in *; auto. } { intros s Hs'. apply Hs. unfold opSlots. cbn. rewrite app_nil_r. exact Hs'. }
        cbn [obind operand]. destruct m1; cbn; eauto.
      + intros s Hs. unfold opSlots in Hs. cbn in Hs. rewrite app_nil_r in Hs.
        eapply op_reads; eauto. cbn [frefs]. apply incl_refl.
    - destruct HP as (HB & ty & dl & dr & Ety & HD1 & HD2 & Eq). inversion Eq; subst op. clear Eq. cbn [op_bucket atIn] in *. split; auto.
      cbn [regular] in Hr. destruct Hr as [Hr1 Hr2]. split.
      + intros sv lit Hl Hs. unfold opResult. cbn [op_lhs op_rhs op_op].
        destruct (odref_total c (baseOf aft p) sv lit e1 dl) as [[x m1] ->]; auto.
        { destruct aft; cbn in *; auto. } { intros s Hs'. apply Hs. unfold opSlots. cbn. apply in_app_iff. auto. }
        destruct (odref_total c (baseOf aft p) sv lit e2 dr) as [[y m2] ->]; auto.
        { destruct aft; cbn in *; auto. } { intros s Hs'. apply Hs. unfold opSlots. cbn. apply in_app_iff. auto. }
        cbn [obind]. destruct (m1 || m2); eauto. destruct (applyOp o ty x y); eauto.
      + intros s Hs. unfold opSlots in Hs. cbn in Hs. apply in_app_iff in Hs as [Hs|Hs].
        * eapply (op_reads c k (XCmp k0 e1 e2) n aft p e1); eauto 6. cbn [frefs]. apply incl_appl, incl_refl.
        * eapply (op_reads c k (XCmp k0 e1 e2) n aft p e2); eauto 6. cbn [frefs]. apply incl_appr, incl_refl.
  Qed.

  Lemma loop_site : forall n aft l c p, itemIn H n aft (ILoop l) -> nth_error A n = Some (c, p) ->
    exists k m v root q b, In (Site c k (XLoop m v (XField root q) b)) SS /\ lp_bucket l = S k /\ lp_mode l = m
      /\ loopOk A bf n c l /\ baseSpec (loopP c q b) aft p
      /\ if aft then exists i, lp_target l = Some (DSlot (S i)) /\ nth_error ow i = Some (c, q) else lp_target l = None /\ p = q.
  Proof.
    intros n aft l c p HI HA. destruct (cd_items _ _ _ _ _ _ _ HK _ _ _ HI) as ([c' k e] & HS & p' & HA' & HP).
    rewrite HA in HA'. inversion HA'; subst c' p'. clear HA'. rewrite SS_merge in HS.
    destruct e as [| |gg|sa|sa|sa|a|ll|ll|r pp|nn ll|m v i s|a|a|kk ll r]; try contradiction.
    - destruct i as [| |gg|sa|sa|sa|a|ll|ll|root q|nn ll|m1 v1 i1 s1|a|a|kk ll r]; try contradiction. destruct HP as (_ & HB & n' & tg & Eq & HN & Hlt & HT').
      inversion Eq; subst l. cbn [lp_bucket lp_mode lp_target]. exists k, m, v, root, q, s. repeat split; auto.
      cbn [lp_bucket]. eapply bodies_ctx; eauto.
    - destruct HP as (_ & d & _ & Eq). discriminate.
    - destruct HP as (_ & ty & dl & dr & _ & _ & _ & Eq). discriminate.
  Qed.

  Lemma item_op : forall n x aft op, nth_error H n = Some x -> In (IOp op) (contents x aft) -> itemIn H n aft (IOp op).
  Proof. intros. exists x. auto. Qed.

  Theorem heap_ok : heapOk o H T A ow bf vis.
  Proof.
    pose proof (cd_rep _ _ _ _ _ _ _ HK) as R.
    assert (forall n x op, nth_error H n = Some x -> In op (x_ops x) -> itemIn H n false (IOp op)) as IO.
    { intros n x op En Hop. exists x. split; auto. cbn. apply in_app_iff. left. now apply in_map. }
    assert (forall n x l, nth_error H n = Some x -> In l (x_loops x) -> itemIn H n false (ILoop l)) as IL.
    { intros n x l En Hop. exists x. split; auto. cbn. apply in_app_iff. right. now apply in_map. }
    assert (forall n x af op, nth_error H n = Some x -> x_after x = Some af -> In op (af_ops af) -> itemIn H n true (IOp op)) as IO2.
    { intros n x af op En Ea Hop. exists x. split; auto. cbn. rewrite Ea. apply in_app_iff. left. now apply in_map. }
    assert (forall n x af l, nth_error H n = Some x -> x_after x = Some af -> In l (af_loops af) -> itemIn H n true (ILoop l)) as IL2.
    { intros n x af op En Ea Hop. exists x. split; auto. cbn. rewrite Ea. apply in_app_iff. right. now apply in_map. }
    constructor; auto.
    - apply R.
    - intros n x c p En HA. constructor.
      + intros k m El. eapply (rp_elem _ _ _ _ R); eauto.
      + intros i k r Ho. assert (In (c, p ++ k :: r) A) as HI.
        { apply (rp_owner _ _ _ _ R i). exact Ho. }
        assert (exists m, nth_error A m = Some (c, p ++ [k])) as (m & Em).
        { clear -R HI. revert HI. induction r as [|y r IHr] using rev_ind; intro HI.
          - apply In_nth_error in HI. exact HI.
          - apply In_nth_error in HI as (m & Em). rewrite app_comm_cons, app_assoc in Em.
            destruct (rp_par _ _ _ _ R _ _ _ _ Em) as (n & x & Hn & _). apply IHr. eapply nth_error_In; eauto. }
        destruct (rp_par _ _ _ _ R _ _ _ _ Em) as (n2 & x2 & Hn2 & Hx2 & El).
        assert (n2 = n) as -> by (eapply rep_inj; eauto). rewrite En in Hx2. inversion Hx2; subst. congruence.
      + intros i Ei. apply (rp_store _ _ _ _ R _ _ _ _ En HA). exact Ei.
      + intros i Ei. apply (rp_store _ _ _ _ R _ _ _ _ En HA). exact Ei.
      + apply Forall_forall. intros op Hop. destruct (op_site n false op c p (IO _ _ _ En Hop) HA) as (H1 & H2 & H3).
        split; auto. split; auto. intros s Hs. destruct (H3 s Hs) as (i & E1 & E2 & [E3|[E3 _]]); [eauto|discriminate].
      + apply Forall_forall. intros l Hl. destruct (loop_site n false l c p (IL _ _ _ En Hl) HA) as (k & m & v & root & q & b & HS & EB & EM & HLo & HB & HT1 & ->).
        split; auto. split; auto. intros i (v' & b' & q' & HBd & Hq' & Ho). rewrite EB in HBd.
        assert (bodyAt (S k) v b) as HBd2 by (exists c, k, m, (XField root q); auto).
        destruct (bodyAt_fun _ _ _ _ _ HBd HBd2) as [-> ->].
        destruct (site_ctx _ _ _ HS) as (cv & P & b0 & HX & _). destruct (site_in _ _ _ _ _ _ HS HX) as (_ & Hc & Hr & Hf).
        inversion HX as [|c' v'' b'' HBd3]; subst.
        * exfalso. cbn [baseSpec loopP Nat.eqb] in HB. destruct HB as [HB _].
          assert (q' = q) as -> by (apply HB; right; exact Hq'). cbn [regular] in Hr. destruct Hr as (_ & Hr & _). now apply Hr.
        * exists cv, b0, q'. split; auto. split; auto. apply in_paths. apply in_paths in Hq'. apply Hf. cbn [frefs]. apply in_app_iff. auto.
      + intros Hne i. destruct (lookup (indexKey i) (x_elems x)) as [m|] eqn:El; auto. exfalso.
        destruct (x_loops x) as [|l ls] eqn:Els; [contradiction|].
        destruct (loop_site n false l c p) as (k & m0 & v & root & q & b & HS & EB & EM & HLo & HB & HT1 & ->); auto.
        { eapply IL; eauto. rewrite Els. now left. }
        destruct (site_ctx _ _ _ HS) as (cv & P & b0 & HX & _). destruct (site_in _ _ _ _ _ _ HS HX) as (_ & Hc & Hr & Hf).
        cbn [regular] in Hr. destruct Hr as (Hr & _ & _).
        destruct (rp_elem _ _ _ _ R _ _ _ _ _ _ En HA El) as [_ Em]. apply nth_error_In in Em.
        assert (exists r, In (q ++ indexKey i :: r) P) as (r & Hin); [|eapply Hr; eauto].
        destruct (cd_A _ _ _ _ _ _ _ HK _ Em) as [X|([c1 k1 e1] & HS1 & HA1)]; [inversion X as [[X1 X2]]; now destruct q|].
        rewrite SS_merge in HS1.
        assert (forall root1 q1 r1, In (root1, q1) (frefs e1) -> c = cx root1 c1 -> q1 = (q ++ [indexKey i]) ++ r1 -> compilable o 0 E ->
          (root1 <> 0 -> c1 = c -> In (root1, q1) (frefs e1) -> root1 = cv) -> exists r, In (q ++ indexKey i :: r) P) as Fin.
        { intros root1 q1 r1 HR1 Ec Eq _ Hroot. rewrite <- app_assoc in Eq. cbn [app] in Eq. exists r1. rewrite <- Eq.
          assert (forall c1 k1 e1, In (Site c1 k1 e1) SS -> incl (frefs e1) (frefs E)) as Glob.
          { clear. intros c1 k1 e1 HI.
            set (Q := fun (_ : nat) e => incl (frefs e) (frefs E)).
            destruct (site_inherit Q) with (e := E) (c := 0) (k := 0) (cv := 0) (c' := c1) (k' := k1) (e' := e1)
              as [(_ & X)|(? & ? & ? & ? & ? & ? & _ & _ & _ & X)]; auto.
            - intros cv e e' HQ Hd. unfold Q in *. intros f Hf; apply HQ; revert f Hf; exact (direct_frefs e e' Hd).
            - intros cv m v i b HQ. unfold Q in *. intros f Hf. apply HQ. cbn [frefs]. apply in_app_iff. auto.
            - unfold Q. apply incl_refl. }
          revert Ec Eq; inversion HX as [|c' v'' b'' HBd3]; subst; intros Ec Eq.
          - apply in_paths. apply (Glob _ _ _ HS1).
            destruct (Nat.eq_dec root1 0) as [->|Hn0]; auto. exfalso.
            unfold cx in Ec. destruct (Nat.eqb_spec root1 0); [contradiction|]. subst c1. apply Hn0. now apply Hroot.
          - assert (c <> 0) as Hc0 by (apply body_facts in HBd3; tauto).
            unfold cx in Ec. destruct (Nat.eqb_spec root1 0); [congruence|]. subst c1.
            assert (root1 = cv) as -> by auto. apply in_paths. destruct (site_in _ _ _ _ _ _ HS1 HX) as (_ & _ & _ & Hf1). auto. }
        destruct (site_ctx _ _ _ HS1) as (cv1 & P1 & b1 & HX1 & D1 & _). destruct (site_in _ _ _ _ _ _ HS1 HX1) as (_ & Hc1 & _ & _).
        assert ((exists a, e1 = XExists a) \/ (exists kk l r, e1 = XCmp kk l r) -> exists r, In (q ++ indexKey i :: r) P) as Atom.
        { intro Hk. assert (PAe c1 e1 (c, q ++ [indexKey i])) as (root1 & q1 & r1 & HR1 & Ec & Eq).
          { destruct Hk as [(a & ->)|(kk & l1 & r1 & ->)]; exact HA1. }
          cbn [fst snd] in *. eapply Fin; eauto. intros Hr0 -> _. destruct (ctx_fun _ _ _ _ _ _ _ HX HX1) as (<- & _).
          destruct (roots_of e1 cv (root1, q1)) as [X|X]; auto. cbn in X. contradiction. }
        destruct (direct_kind _ _ D1) as [(a & ->)|[(kk & l1 & r1 & -> & _)|(m1 & v1 & i1 & s1 & ->)]]; [apply Atom; eauto|apply Atom; eauto|].
        cbn [compilable] in Hc1. destruct Hc1 as (_ & (q1 & -> & _) & _).
        cbn [asksA fst snd] in HA1. destruct HA1 as [(Ec & r1 & Eq)|X]; [|inversion X; now destruct q].
        subst c1. destruct (ctx_fun _ _ _ _ _ _ _ HX HX1) as (<- & _).
        apply (Fin cv q1 r1); auto.
        * cbn [frefs]. now left.
        * unfold cx. destruct (Nat.eqb_spec cv 0) as [->|]; auto. destruct (ctx_facts _ _ _ _ HX) as [_ _ [_ Z]]. auto.
      + intros af Ea. split.
        * apply Forall_forall. intros op Hop. destruct (op_site n true op c p (IO2 _ _ _ _ En Ea Hop) HA) as (H1 & H2 & H3).
          split; auto. split; auto. intros s Hs. destruct (H3 s Hs) as (i & E1 & E2 & [E3|[_ E3]]); eauto.
        * apply Forall_forall. intros l Hl. destruct (loop_site n true l c p (IL2 _ _ _ _ En Ea Hl) HA) as (k & m & v & root & q & b & HS & EB & EM & HLo & HB & i & Ht & Ho).
          exists i. split; auto. split; [eapply nth_lt; eauto|].
          cbn [baseSpec] in HB. destruct HB as [HB [Htwo _]].
          split. { right. destruct (HB q (or_introl eq_refl)) as (kk & r & ->). exists kk, r. exact Ho. }
          split; auto. intros j (v' & b' & q' & HBd & Hq' & Ho'). right. rewrite EB in HBd.
          assert (bodyAt (S k) v b) as HBd2 by (exists c, k, m, (XField root q); auto).
          destruct (bodyAt_fun _ _ _ _ _ HBd HBd2) as [-> ->].
          unfold loopP in HB, Htwo. destruct (Nat.eqb_spec c 0) as [->|Hc0].
          -- destruct (HB q' (or_intror Hq')) as (kk & r & ->). exists kk, r. exact Ho'.
          -- exfalso. destruct Htwo as (q1 & q2 & [<-|[]] & [<-|[]] & Hne). congruence.
    - intros c i (v & b & q & HBd & Hq & Ho). split; [apply body_facts in HBd; tauto|]. exists q. exact Ho.
  Qed.
End Heap.
