(** A filter settled by the members read so far is answered on the spot. *)
From Verif Require Import Base MTokenizer SJson MLit PLit MFastVal MMath SFormula SEvents SMerge MBinTree MSession MExpr SCompile MTransform SFilter
  MMatcher MTree SDoc SSat SSem SStatus SEarly PBinTree PSession PMerge TBinTree PTree PTrace PExpr PCompile PPlace PFun PSites PHeap PEval.
From Coq Require Import List NArith ZArith Arith Lia Bool.
Import ListNotations.
Open Scope nat_scope.

Lemma oneHead_all : forall P, oneHead P = true -> P <> [] /\ exists h, forall q, In q P -> exists r, q = h :: r.
Proof.
  intros [|[|h r] P] X; try discriminate. split; [discriminate|]. exists h. cbn [oneHead] in X. rewrite forallb_forall in X.
  intros q [<-|Hq]; [eauto|]. specialize (X q Hq). destruct q as [|k q]; [discriminate|]. apply bytes_eqb_eq in X. subst. eauto.
Qed.
Lemma oneHead_base : forall P aft, oneHead P = true -> baseSpec P aft [] -> False.
Proof.
  intros P aft X B. destruct (oneHead_all P X) as (Hne & h & Hh). destruct aft; cbn [baseSpec] in B.
  - destruct B as (_ & _ & q1 & q2 & H1 & H2 & H3). destruct (Hh q1 H1) as [r1 E1], (Hh q2 H2) as [r2 E2]. exact (H3 h r1 r2 E1 E2).
  - destruct B as [B _]. destruct P as [|q P]; [contradiction|]. destruct (Hh q (or_introl eq_refl)) as [r E]. rewrite (B q (or_introl eq_refl)) in E. discriminate.
Qed.

Lemma first_report_app : forall l m k, first_report (l ++ m) k = match first_report l k with Some b => Some b | None => first_report m k end.
Proof. induction l as [|[j b] l IH]; intros m k; auto. cbn [app first_report]. destruct (Nat.eqb j k); auto. Qed.
Lemma asIs_ok : forall o k ty x y, cmpOp k = Some ty ->
  (if snd (applyOp o ty x y) then fst (applyOp o ty x y) else asIs o ty x y) = cmpHolds o k x y.
Proof.
  intros o k ty x y Ek. unfold asIs. destruct k; inversion Ek; subst ty; cbn [applyOp cmpHolds];
    lazymatch goal with
    | |- context [equals o x y] => now destruct (equals o x y) as [c []]
    | |- context [matches o x y] => now destruct (matches o x y) as [c []]
    | _ => now destruct (compare o x y) as [c []]
    end.
Qed.

Section Formula.
  Variable o : oracles.
  Variable root : cst.

  Definition agreeE (r : nat -> option bool) (k : nat) (e : expr) : Prop :=
    match e with
    | XLoop _ _ _ _ => forall b, early o root e = Some b -> r (S k) = Some b
    | _ => forall b, atomEarly o root e = Some b -> r k = Some b
    end.

  Lemma early_and : forall l, l <> [] -> early o root (XAnd l) =
    match l with [] => None | [x] => early o root x | x :: r => k_bin BAnd (early o root x) (early o root (XAnd r)) end.
  Proof. intros [|x [|y r]] Hl; [contradiction| |reflexivity]. cbn [early]. destruct (early o root x) as [[]|]; reflexivity. Qed.
  Lemma early_or : forall l, l <> [] -> early o root (XOr l) =
    match l with [] => None | [x] => early o root x | x :: r => k_bin BOr (early o root x) (early o root (XOr r)) end.
  Proof. intros [|x [|y r]] Hl; [contradiction| |reflexivity]. cbn [early]. destruct (early o root x) as [[]|]; reflexivity. Qed.

  Lemma keval_early : forall e k r, compilable o 0 e -> (forall k' e', In (Site 0 k' e') (sites 0 k e) -> agreeE r k' e') ->
    forall b, early o root e = Some b -> keval r k (structure e) = Some b.
  Proof.
    assert (forall l, Forall (fun e => forall k r, compilable o 0 e -> (forall k' e', In (Site 0 k' e') (sites 0 k e) -> agreeE r k' e') ->
        forall b, early o root e = Some b -> keval r k (structure e) = Some b) l ->
      forall k r, l <> [] -> allC o 0 l -> (forall k' e', In (Site 0 k' e') (sitesChain 0 k l) -> agreeE r k' e') ->
      (forall b, early o root (XAnd l) = Some b -> keval r k (joined BAnd (map structure l)) = Some b)
      /\ (forall b, early o root (XOr l) = Some b -> keval r k (joined BOr (map structure l)) = Some b)) as CH.
    { intros l HF. induction HF as [|x l Hx HF IHl]; intros k r Hl HA HS; [contradiction|].
      rewrite early_and, early_or by discriminate. destruct HA as [HA1 HA2]. destruct l as [|y l].
      - cbn [map joined]. split; intros b Hb; apply Hx; auto.
      - cbn [map]. rewrite !joined_cons. rewrite chain_cons in HS. cbn [keval].
        destruct (IHl (S k + fsize (structure x)) r) as [I1 I2]; auto; [discriminate| |].
        { intros k' e' Hi. apply HS. apply in_app_iff. auto. }
        assert (forall b, early o root x = Some b -> keval r (S k) (structure x) = Some b) as I3.
        { apply Hx; auto. intros k' e' Hi. apply HS. apply in_app_iff. auto. }
        split; intros b; apply k_bin_mono; auto. }
    induction e as [| |gg|sa|sa|sa|a IH|l IH|l IH|r p|n l IH|m x i s IHi IHs|a IH|a IH|k l r IHl IHr] using expr_ind'; intros kk r0 HC HS b Hb;
      try discriminate.
    - cbn [structure keval]. cbn [early] in Hb. eapply k_not_mono; [|exact Hb]. apply IH; auto.
    - apply compilable_and in HC as [Hl HC]. apply (CH l IH kk r0); auto. now rewrite <- sites_and.
    - apply compilable_or in HC as [Hl HC]. apply (CH l IH kk r0); auto. now rewrite <- sites_or.
    - specialize (HS kk (XLoop m x i s) (or_introl eq_refl)). exact (HS b Hb).
    - specialize (HS kk (XExists a) (or_introl eq_refl)). exact (HS b Hb).
    - specialize (HS (S kk) (XExists a) (or_introl eq_refl)). cbn [structure keval]. cbn [early] in Hb. eapply k_not_mono; [|exact Hb]. exact HS.
    - destruct k; try (specialize (HS kk _ (or_introl eq_refl)); exact (HS b Hb)).
      specialize (HS (S kk) _ (or_introl eq_refl)). cbn [structure keval]. cbn [early] in Hb. eapply k_not_mono; [|exact Hb]. exact HS.
  Qed.
End Formula.

Section Early.
  Variable o : oracles.
  Variables (g : expr) (gs : list expr).
  Let E := XOr (g :: gs).
  Let SS := sites 0 0 E.
  Hypothesis HC : compilable o 0 E.
  Hypothesis HG : regular (pathsOf 0 E) 0 E.
  Variable H : list execnode.
  Variable ns : nat.
  Variables A ow : list addr.
  Hypothesis HK : compiled o g gs H ns A ow.
  Variable T : list node.
  Hypothesis HT : laid T 0 0 (structures g gs).
  Hypothesis HL : length T = fsize (structures g gs).
  Variable root : cst.
  Hypothesis HR : docOk o root.
  Variables (ms0 : list (mem cst)) (w0 : bytes).
  Hypothesis Hobj : root = CObj ms0 w0.
  Hypothesis HTm : tame root 0 root E.

  Notation bf := (bf g gs).
  Notation vis := (vis g gs ow).
  Notation ctxAt := (ctxAt g gs).
  Notation ho := (asIs o).
  Notation hr := (cmpHolds o).
  Notation trN := (trN o H root ow bf ho).
  Lemma fitted : rootFit g gs ow root.
  Proof. rewrite Hobj. exact I. Qed.
  Let Hobj' := fitted.
  Let HX : ctxAt 0 0 (pathsOf 0 E) E := ltac:(constructor).

  (** What the root node itself reports is about several members. *)
  Lemma root_late : forall d sg x ev, nth_error H 0 = Some x -> sgRel ow root 0 root sg -> In ev (opsN o H root ow bf ho d sg root x) ->
    exists k e, In (Site 0 k e) SS /\
      match e with
      | XLoop _ _ (XField _ q) s => fst (den ev) = S k /\ oneHead (loopPaths 0 q s) = false
      | XLoop _ _ _ _ => False
      | _ => fst (den ev) = k /\ oneHead (pathsOf 0 e) = false
      end.
  Proof.
    intros d sg x ev Ex HSg He. pose proof (cd_root _ _ _ _ _ _ _ HK) as HA.
    assert (forall P aft, baseSpec P aft [] -> oneHead P = false) as OH.
    { intros P aft B. destruct (oneHead P) eqn:X; auto. destruct (oneHead_base P aft X B). }
    assert (forall k e aft op b, In (Site 0 k e) SS -> ((exists a, e = XExists a) \/ (exists k l r, e = XCmp k l r)) ->
      placed o A ow (Site 0 k e) 0 aft (IOp op) -> ev = ERep k b -> exists k e, In (Site 0 k e) SS /\
      match e with
      | XLoop _ _ (XField _ q) s => fst (den ev) = S k /\ oneHead (loopPaths 0 q s) = false
      | XLoop _ _ _ _ => False
      | _ => fst (den ev) = k /\ oneHead (pathsOf 0 e) = false
      end) as ATOM.
    { intros k e aft op b HS Hk (p & HA' & HP) ->. rewrite HA in HA'. injection HA' as <-. exists k, e. split; auto.
      assert (baseSpec (pathsOf 0 e) aft []) as BS.
      { rewrite <- (curp_is o g gs HC HG 0 0 0 _ _ k e HS HX Hk). destruct Hk as [(a & ->)|(kk & l & r & ->)]; tauto. }
      apply OH in BS. destruct Hk as [(a & ->)|(kk & l & r & ->)]; auto. }
    unfold opsN in He. apply in_app_iff in He as [He|He].
    - apply in_map_iff in He as (op & <- & Hop).
      destruct (op_ev o g gs HC HG H ns A ow HK T HL root HR Hobj' hr ho (asIs_ok o) 0 0 _ _ root sg 0 x false [] op (litOf o root) HX HSg HR Ex HA) as (k & e & HS & Hk & HPl & Eq).
      + cbn. apply in_app_iff. left. now apply in_map.
      + cbn [baseOf]. now apply lit_of.
      + eapply ATOM; eauto.
    - unfold aftN in He. destruct (x_after x) as [af|] eqn:Ea; [|destruct He]. apply in_app_iff in He as [He|He].
      + apply in_flat_map in He as (l & Hl & He). destruct (targetArr root sg l) as [es|] eqn:Et; [|destruct He]. destruct He as [<-|[]].
        assert (itemIn H 0 true (ILoop l)) as HI by (eapply in_item; eauto; cbn; rewrite Ea; apply in_app_iff; right; now apply in_map).
        destruct (loop_site _ _ _ _ _ _ _ HK _ _ _ _ _ HI HA) as (k & md & vv & r & q & s & HS & H1 & H2 & _ & BS & _).
        exists k, (XLoop md vv (XField r q) s). split; auto. unfold loopEvN. cbn [den fst]. split; auto. eapply OH; eauto.
      + apply in_map_iff in He as (op & <- & Hop).
        destruct (op_ev o g gs HC HG H ns A ow HK T HL root HR Hobj' hr ho (asIs_ok o) 0 0 _ _ root sg 0 x true [] op None HX HSg HR Ex HA) as (k & e & HS & Hk & HPl & Eq).
        * cbn. rewrite Ea. apply in_app_iff. left. now apply in_map.
        * reflexivity.
        * eapply ATOM; eauto.
  Qed.

  (** The members report every settled test. *)
  Lemma members_report : forall d sg x, length H <= S d -> nth_error H 0 = Some x -> sgRel ow root 0 root sg ->
    forall k e, In (Site 0 k e) SS -> agreeE o root (first_report (map den (flat_map (childN o H root ow bf ho d sg x) (items root)))) k e.
  Proof.
    intros d sg x Hd Ex HSg k e HS. set (ch := flat_map _ (items root)).
    pose proof (cd_root _ _ _ _ _ _ _ HK) as HA.
    assert (claim o g gs root hr 0 0 root (first_report (map den (trN (S d) 0 root sg)))) as CL.
    { exact (eval_all o g gs HC HG H ns A ow HK T HT HL root HR Hobj' hr ho (asIs_ok o) (S d) 0 0 0 (pathsOf 0 E) E root sg HA Hd HX HSg HR HTm). }
    assert (forall k' b, first_report (map den (trN (S d) 0 root sg)) k' = Some b ->
      first_report (map den ch) k' = Some b \/ exists ev, In ev (opsN o H root ow bf ho d sg root x) /\ fst (den ev) = k') as SPLIT.
    { intros k' b Er. destruct (first_report (map den ch) k') as [b'|] eqn:Ec.
      - left. rewrite trN_S, Ex in Er. rewrite Hobj in Er at 1. cbn match in Er. fold ch in Er. destruct (x_elems x) eqn:El.
        + exfalso. unfold ch in Ec. assert (forall l, flat_map (childN o H root ow bf ho d sg x) l = []) as X.
          { induction l as [|[[kk| | |] w] l IH]; auto. cbn [flat_map]. rewrite IH. unfold childN. cbn [fst snd]. now rewrite El. }
          rewrite X in Ec. discriminate.
        + rewrite map_app, first_report_app, Ec in Er. exact Er.
      - right. apply first_report_in in Er. apply in_map_iff in Er as (ev & Ed & Hev). exists ev. rewrite Ed. split; auto.
        rewrite trN_S, Ex in Hev. rewrite Hobj in Hev at 1. cbn match in Hev. fold ch in Hev. destruct (x_elems x); [exact Hev|].
        apply in_app_iff in Hev as [Hev|Hev].
        + exfalso. destruct (first_report_some (map den ch) k' b) as [b' X]; [|congruence]. rewrite <- Ed. now apply in_map.
        + apply in_app_iff in Hev as [Hev|Hev]; [|destruct (items root); [destruct Hev|exact Hev]].
          unfold opsN. apply in_app_iff. auto. }
    assert (forall k1 e1 k2 m2 v2 i2 s2', In (Site 0 k1 e1) SS -> ((exists a, e1 = XExists a) \/ (exists k l r, e1 = XCmp k l r)) -> In (Site 0 k2 (XLoop m2 v2 i2 s2')) SS -> k1 <> S k2) as DJ.
    { intros k1 e1 k2 m2 v2 i2 s2' I1 K1 I2. eapply leaf_not_body; [eapply atom_leaf; eauto|eapply bodies_ctx; eauto]. }
    specialize (CL k e HS).
    destruct (site_kind g gs 0 k e HS) as [Hk|(m & vv & i & s & ->)].
    - assert (forall b, atomEarly o root e = Some b -> first_report (map den ch) k = Some b) as G.
      { intros b Hb. unfold atomEarly in Hb. destruct (oneHead (pathsOf 0 e)) eqn:EO; [|discriminate].
        assert (first_report (map den (trN (S d) 0 root sg)) k = Some b) as Er.
        { change (atom3 o root 0 root e) with (atom3By o hr root 0 root e) in Hb.
          destruct Hk as [(a & ->)|(kk & l & r & ->)]; destruct CL as [CL|(_ & _ & CL)]; congruence. }
        destruct (SPLIT k b Er) as [X|(ev & Hev & Ed)]; auto. exfalso.
        destruct (root_late d sg x ev Ex HSg Hev) as (k2 & e2 & HS2 & Y).
        destruct (site_kind g gs 0 k2 e2 HS2) as [Hk2|(m2 & vv2 & i2 & s2 & ->)].
        - assert (fst (den ev) = k2 /\ oneHead (pathsOf 0 e2) = false) as [Y1 Y2] by (destruct Hk2 as [(a & ->)|(kk & l & r & ->)]; exact Y).
          rewrite Y1 in Ed. subst k2. destruct (site_unique _ _ _ _ _ _ _ _ HS HS2) as [_ <-]. congruence.
        - destruct i2; try contradiction. destruct Y as [Y1 _]. apply (DJ _ _ _ _ _ _ _ HS Hk HS2). congruence. }
      destruct Hk as [(a & ->)|(kk & l & r & ->)]; exact G.
    - intros b Hb. cbn [early] in Hb. destruct i as [| |gg|sa|sa|sa|a|ll|ll|r q|nn ll|mm v1 i s1|a|a|kk ll r]; try discriminate. destruct (oneHead (loopPaths 0 q s)) eqn:EO; [|discriminate].
      change (sat3 o root 0 root (XLoop m vv (XField r q) s)) with (sat3By o hr root 0 root (XLoop m vv (XField r q) s)) in Hb. rewrite <- CL in Hb.
      destruct (SPLIT _ b Hb) as [X|(ev & Hev & Ed)]; auto. exfalso.
      destruct (root_late d sg x ev Ex HSg Hev) as (k2 & e2 & HS2 & Y).
      destruct (site_kind g gs 0 k2 e2 HS2) as [Hk2|(m2 & vv2 & i2 & s2 & ->)].
      + assert (fst (den ev) = k2 /\ oneHead (pathsOf 0 e2) = false) as [Y1 Y2] by (destruct Hk2 as [(a & ->)|(kk & l1 & l2 & ->)]; exact Y).
        apply (DJ _ _ _ _ _ _ _ HS2 Hk2 HS). congruence.
      + destruct i2; try contradiction. destruct Y as [Y1 Y2]. rewrite Y1 in Ed. injection Ed as ->.
        destruct (site_unique _ _ _ _ _ _ _ _ HS HS2) as [_ Eq]. injection Eq as -> -> -> -> ->. congruence.
  Qed.

  (** ** Filters whose tests all name members *)
  Lemma anchored_direct : forall e e', anchored e -> In e' (direct e) -> anchored e'.
  Proof.
    apply direct_inherit; auto.
    - intros l x HP Hx. cbn [anchored] in HP. destruct HP as [_ HP]. eapply fix_all in HP; eauto.
    - intros l x HP Hx. cbn [anchored] in HP. destruct HP as [_ HP]. eapply fix_all in HP; eauto.
  Qed.
  Lemma anchored_some : forall e, anchored e -> exists e', In e' (direct e).
  Proof.
    induction e as [| |gg|sa|sa|sa|a IH|l IH|l IH|r p|n l IH|m v i s IHi IHs|a IH|a IH|k l r IHl IHr] using expr_ind'; intro X; try contradiction.
    - cbn [direct]. auto.
    - destruct X as [Hn X]. destruct l as [|y l]; [contradiction|]. inversion IH as [|? ? I1 _]; subst. destruct X as [X _]. destruct (I1 X) as (z & Hz).
      exists z. cbn [direct flat_map]. apply in_app_iff. auto.
    - destruct X as [Hn X]. destruct l as [|y l]; [contradiction|]. inversion IH as [|? ? I1 _]; subst. destruct X as [X _]. destruct (I1 X) as (z & Hz).
      exists z. cbn [direct flat_map]. apply in_app_iff. auto.
    - eexists. now left.
    - eexists. now left.
    - eexists. now left.
    - destruct k; eexists; now left.
  Qed.
  Lemma dref_owned : forall c e d, drefOf o ow c None e d -> forall r q, In (r, q) (frefs e) -> exists i, nth_error ow i = Some (cx r c, q).
  Proof.
    intro c. induction e as [| |gg|sa|sa|sa|a IH|l IH|l IH|r p|n l IH|m v i s IHi IHs|a IH|a IH|k l r IHl IHr] using expr_ind'; intros d HD r0 q0 Hq;
      try (destruct Hq; fail); try (destruct HD as (y & HD & _); discriminate).
    - destruct Hq as [Hq|[]]. injection Hq as <- <-. destruct HD as [(_ & X & _)|(_ & i & _ & X)]; [discriminate|eauto].
    - apply drefOf_func in HD as (ds & -> & HA). cbn [frefs] in Hq. apply in_flat_map in Hq as (y & Hy & Hq).
      rewrite Forall_forall in IH. clear n. revert ds HA. induction l as [|z l IHl]; [destruct Hy|]. intros [|d1 ds] HA; [destruct HA|]. destruct HA as [H1 H2].
      destruct Hy as [->|Hy]; [eapply IH; eauto; now left|]. eapply IHl; eauto. intros; eapply IH; eauto. now right.
  Qed.
  Lemma odref_owned : forall c e d, odrefOf o ow c None e d -> forall r q, In (r, q) (frefs e) -> exists i, nth_error ow i = Some (cx r c, q).
  Proof.
    intros c e d HD r q Hq. destruct e; try (destruct HD as (d' & -> & HD); eapply dref_owned; eauto; fail).
    destruct Hq as [Hq|[]]. injection Hq as <- <-. destruct HD as [(_ & X & _)|(_ & i & _ & X)]; [discriminate|eauto].
  Qed.
  Lemma root_elems : forall m k r x, nth_error A m = Some (0, k :: r) -> nth_error H 0 = Some x -> x_elems x <> [].
  Proof.
    intros m k r x Em Ex. pose proof (cd_rep _ _ _ _ _ _ _ HK) as R.
    destruct (node_prefix o g gs H ns A ow HK r m 0 [k] Em) as (n1 & E1).
    destruct (rp_par _ _ _ _ R n1 0 [] k E1) as (n & x' & En & Ex' & El).
    assert (n = 0) as -> by (exact (rep_inj _ _ _ _ _ _ _ R En (cd_root _ _ _ _ _ _ _ HK))).
    rewrite Ex in Ex'. injection Ex' as <-. intro X. rewrite X in El. discriminate.
  Qed.
  Lemma root_owned : forall i k r x, nth_error ow i = Some (0, k :: r) -> nth_error H 0 = Some x -> x_elems x <> [].
  Proof.
    intros i k r x Ei Ex. apply (rp_owner _ _ _ _ (cd_rep _ _ _ _ _ _ _ HK)) in Ei. apply In_nth_error in Ei as (m & Em). eapply root_elems; eauto.
  Qed.

  Lemma chain_in : forall l c k a, In a l -> exists k', incl (sites c k' a) (sitesChain c k l).
  Proof.
    induction l as [|b l IH]; intros c k a Ha; [destruct Ha|]. destruct l as [|b2 l].
    - destruct Ha as [->|[]]. exists k. apply incl_refl.
    - change (sitesChain c k (b :: b2 :: l)) with (sites c (S k) b ++ sitesChain c (S k + fsize (structure b)) (b2 :: l)). destruct Ha as [->|Ha].
      + exists (S k). apply incl_appl, incl_refl.
      + destruct (IH c (S k + fsize (structure b)) a Ha) as (k' & X). exists k'. now apply incl_appr.
  Qed.
  Lemma direct_site : forall e c k e', In e' (direct e) -> exists k', In (Site c k' e') (sites c k e).
  Proof.
    induction e as [| |gg|sa|sa|sa|a IH|l IH|l IH|r p|n l IH|m v i s IHi IHs|a IH|a IH|kk l r IHl IHr] using expr_ind'; intros c k e' HI; try (destruct HI; fail).
    - cbn [direct sites] in *. eauto.
    - cbn [direct] in HI. apply in_flat_map in HI as (y & Hy & HI). rewrite Forall_forall in IH. rewrite sites_and.
      destruct (chain_in l c k y Hy) as (k1 & X). destruct (IH y Hy c k1 e' HI) as (k' & Hk). eauto.
    - cbn [direct] in HI. apply in_flat_map in HI as (y & Hy & HI). rewrite Forall_forall in IH. rewrite sites_or.
      destruct (chain_in l c k y Hy) as (k1 & X). destruct (IH y Hy c k1 e' HI) as (k' & Hk). eauto.
    - destruct HI as [<-|[]]. eexists. now left.
    - destruct HI as [<-|[]]. eexists. now left.
    - destruct HI as [<-|[]]. eexists. now left.
    - destruct kk; destruct HI as [<-|[]]; eexists; now left.
  Qed.

  Definition allAnchored : Prop := forall k e, In (Site 0 k e) SS -> anchored e.
  Lemma anchored_ops : forall x, allAnchored -> nth_error H 0 = Some x -> x_ops x = [].
  Proof.
    intros x HAn Ex. pose proof (cd_root _ _ _ _ _ _ _ HK) as HA. destruct (x_ops x) as [|op ops] eqn:Eo; auto. exfalso.
    assert (itemIn H 0 false (IOp op)) as HI.
    { eapply in_item; eauto. cbn. rewrite Eo. now left. }
    destruct (cd_items _ _ _ _ _ _ _ HK _ _ _ HI) as ([c k e] & HS & p & HA' & HP). rewrite HA in HA'. injection HA' as <- <-.
    rewrite SS_merge in HS. specialize (HAn k e HS).
    assert (((exists a, e = XExists a) \/ (exists kk l r, e = XCmp kk l r)) /\ baseSpec (curp 0 e) false []) as [Hk BS].
    { destruct e as [| |gg|sa|sa|sa|a|ll|ll|r pp|nn ll|m v i s|a|a|kk ll r]; try contradiction.
      - destruct i; try contradiction. destruct HP as (_ & _ & n' & tg & X & _). discriminate.
      - destruct HP as (X & _). eauto.
      - destruct HP as (X & _). eauto 10. }
    rewrite (curp_is o g gs HC HG 0 0 0 _ _ k e HS HX Hk) in BS.
    assert (pathsOf 0 e <> [] /\ ~ In [] (pathsOf 0 e)) as [N1 N2] by (destruct Hk as [(a & ->)|(kk & l & r & ->)]; exact HAn).
    destruct BS as [B _]. destruct (pathsOf 0 e) as [|q qs]; [contradiction|]. apply N2. rewrite (B q) by now left. now left.
  Qed.
  Lemma anchored_elems : forall x, allAnchored -> (exists k e, In (Site 0 k e) SS) -> nth_error H 0 = Some x -> x_elems x <> [].
  Proof.
    intros x HAn (k & e & HS) Ex. pose proof (HAn k e HS) as An. assert (In (Site 0 k e) (sitesMerge 0 g gs)) as HS' by (rewrite SS_merge; exact HS).
    destruct (cd_sites _ _ _ _ _ _ _ HK _ HS') as (n & aft & it & HI & p & HA & HP).
    destruct p as [|k0 r0]; [|eapply root_elems; eauto].
    destruct (site_kind g gs 0 k e HS) as [Hk|(m & vv & i & s & ->)].
    - assert (exists q qs, pathsOf 0 e = q :: qs /\ q <> []) as (q & qs & Eq & Nq).
      { assert (pathsOf 0 e <> [] /\ ~ In [] (pathsOf 0 e)) as [N1 N2] by (destruct Hk as [(a & ->)|(kk & l & r & ->)]; exact An).
        destruct (pathsOf 0 e) as [|q qs]; [contradiction|]. exists q, qs. split; auto. intros ->. apply N2. now left. }
      assert (exists r, In (r, q) (frefs e) /\ r = 0) as (r & Hr & Er).
      { assert (In q (pathsOf 0 e)) as Hq by (rewrite Eq; now left). unfold pathsOf in Hq. apply in_map_iff in Hq as ([r q'] & X & Hq). cbn in X. subst q'.
        apply filter_In in Hq as [Hq X]. apply Nat.eqb_eq in X. eauto. }
      subst r. destruct q as [|kq rq]; [contradiction|].
      assert (baseSpec (curp 0 e) aft []) as BS by (destruct Hk as [(a & ->)|(kk & l & r & ->)]; apply HP).
      rewrite (curp_is o g gs HC HG 0 0 0 _ _ k e HS HX Hk) in BS. destruct aft.
      + assert (exists i, nth_error ow i = Some (cx 0 0, kq :: rq)) as (i & Hi).
        { destruct Hk as [(a & ->)|(kk & l & r & ->)].
          - destruct HP as (_ & d & HD & _). exact (odref_owned 0 a d HD 0 _ Hr).
          - destruct HP as (_ & ty & dl & dr & _ & HD1 & HD2 & _). cbn [frefs] in Hr. apply in_app_iff in Hr as [Hr|Hr].
            + exact (odref_owned 0 l dl HD1 0 _ Hr).
            + exact (odref_owned 0 r dr HD2 0 _ Hr). }
        eapply root_owned; eauto.
      + destruct BS as [B _]. rewrite Eq in B. discriminate (B (kq :: rq) (or_introl eq_refl)).
    - destruct i; try contradiction. destruct HP as (_ & BS & n' & tg & _ & _ & _ & HT'). cbn [anchored] in An.
      destruct aft.
      + destruct HT' as (i & _ & Ho). destruct path as [|k1 r1]; [exfalso; apply An; now left|]. eapply root_owned; eauto.
      + destruct HT' as (_ & <-). exfalso. apply An. now left.
  Qed.
  Lemma anchored_all : anchored E -> allAnchored /\ exists k e, In (Site 0 k e) SS.
  Proof.
    intro An. split.
    - intros k e HS. destruct (site_in o g gs HC HG 0 0 k e 0 _ _ HS HX) as (D & _). eapply anchored_direct; eauto.
    - destruct (anchored_some _ An) as (e & He). destruct (direct_site _ 0 0 _ He) as (k & Hk). eauto.
  Qed.
End Early.
