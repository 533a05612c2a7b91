(** [Match] with a fresh matcher decides the filter. *)
From Verif Require Import Base PTokenizer MTokenizer SJson MLit PLit MFastVal MMath SFormula SEvents SMerge MBinTree MSession MExpr SCompile MTransform SFilter
  MMatcher MTree SDoc SSat SSem SStatus SEarly PBinTree PSession PMerge TBinTree PTree PTrace PExpr PCompile PPlace PFun PSites PHeap PEval PEarly.
From Coq Require Import List NArith ZArith Arith Lia Bool DecimalN FinFun.
Import ListNotations.
Open Scope nat_scope.

(** ** Well-formed documents *)
Lemma uint_bytes_inj : forall a b, uint_bytes a = uint_bytes b -> a = b.
Proof. induction a; intros []; cbn; intro X; try discriminate; auto; inversion X; f_equal; auto. Qed.
Lemma indexKey_inj : forall i j, indexKey i = indexKey j -> i = j.
Proof.
  intros i j X. unfold indexKey in X. cbn [app] in X. injection X as X. apply app_inv_tail in X. unfold appendUint in X.
  apply uint_bytes_inj in X. apply Unsigned.to_uint_inj in X. lia.
Qed.
Lemma esc_total : forall l s, exists b s' al, parseEscString l s = Ok (b, s', al).
Proof.
  intros l s. unfold parseEscString. destruct (unescape_safe (slice l 1 (length l - 1)) s) as (u & -> & _). destruct (u_res u); eauto.
Qed.
Lemma key_total : forall t l, key_kind t -> exists k, keyOf t l = Ok k.
Proof.
  intros t l [<-|[<-|[]]]; cbn [keyOf]; [eauto|]. destruct (esc_total l (repeat 0%N 64)) as (b & s & al & ->). eauto.
Qed.
Lemma lit_total : forall o t l, lit_kind t -> exists x, parseLit o t l = Ok x.
Proof.
  intros o t l Hk. unfold lit_kind in Hk. cbn [In] in Hk. destruct Hk as [<-|[<-|[<-|[<-|[<-|[<-|[<-|[]]]]]]]]; cbn [parseLit]; eauto.
  destruct (esc_total l (repeat 0%N 64)) as (b & s & al & ->). eauto.
Qed.
Lemma arr_keys : forall es i, map fst (arrItems i es) = map Ok (map indexKey (seq i (length es))).
Proof. induction es as [|e es IH]; intro i; cbn; auto. now rewrite IH. Qed.
Lemma arr_vals : forall es i, map snd (arrItems i es) = map e_v es.
Proof. induction es as [|e es IH]; intro i; cbn; auto. now rewrite IH. Qed.

Lemma wf_docOk : forall o v, wf_cst v -> distinct v -> docOk o v.
Proof.
  intros o. induction v as [t lx|es w IH|ms w IH] using cst_ind'; intros HW HD.
  - constructor; [apply lit_total, HW|exists []; split; [reflexivity|constructor]|intros w []].
  - apply wf_arr in HW as [_ HW]. apply distinct_arr in HD. rewrite Forall_forall in *. constructor.
    + cbn. eauto.
    + exists (map indexKey (seq 0 (length es))). cbn [items]. rewrite arr_keys. split; auto.
      apply Injective_map_NoDup; [exact indexKey_inj|apply seq_NoDup].
    + cbn [items]. rewrite arr_vals. intros u Hu. apply in_map_iff in Hu as (e & <- & He). apply IH; auto. apply (HW e He).
  - apply wf_obj in HW as [_ HW]. apply distinct_obj in HD as [HN HD]. rewrite Forall_forall in *. constructor.
    + cbn. eauto.
    + assert (exists ks, map (fun m => keyOf (m_kt m) (m_kx m)) ms = map Ok ks) as [ks Ek].
      { clear -HW. induction ms as [|m ms IHm]; [exists []; reflexivity|].
        destruct IHm as [ks Ek]; [intros; apply HW; now right|]. destruct (key_total (m_kt m) (m_kx m)) as [k Hk]; [apply (HW m); now left|].
        exists (k :: ks). cbn. now rewrite Hk, Ek. }
      exists ks. cbn [items]. rewrite map_map. cbn [fst]. split; auto. rewrite Ek in HN. eapply NoDup_map_inv; eauto.
    + cbn [items]. rewrite map_map. cbn [snd]. intros u Hu. apply in_map_iff in Hu as (m & <- & Hm). apply IH; auto. apply (HW m Hm).
Qed.

(** ** Where each expression of a list is compiled to *)
Fixpoint mplaces (i : nat) (g : expr) (gs : list expr) : list (nat * expr) :=
  match gs with
  | [] => [(i, g)]
  | g' :: r => (S i, g) :: mplaces (S i + fsize (structure g)) g' r
  end.
Lemma mplaces_buckets : forall gs g i, mbuckets i (structure g) (map structure gs) = map (fun ke => (fst ke, structure (snd ke))) (mplaces i g gs).
Proof. induction gs as [|e gs IH]; intros g i; cbn; auto. now rewrite <- IH. Qed.
Lemma mplaces_exprs : forall gs g i, map snd (mplaces i g gs) = g :: gs.
Proof. induction gs as [|e gs IH]; intros g i; cbn [mplaces map snd]; auto. now rewrite IH. Qed.
Lemma mplaces_in : forall gs g i k e, In (k, e) (mplaces i g gs) ->
  incl (sites 0 k e) (sitesChain 0 i (g :: gs)) /\ incl (falses k e) (falsesChain i (g :: gs)).
Proof.
  induction gs as [|e2 gs IH]; intros g i k e HI; cbn [mplaces] in HI.
  - destruct HI as [HI|[]]. inversion HI; subst. split; apply incl_refl.
  - rewrite chain_cons. change (falsesChain i (g :: e2 :: gs)) with (falses (S i) g ++ falsesChain (S i + fsize (structure g)) (e2 :: gs)).
    destruct HI as [HI|HI].
    + inversion HI; subst. split; apply incl_appl, incl_refl.
    + apply IH in HI as [H1 H2]. split; apply incl_appr; auto.
Qed.

Lemma buckets_nth : forall es l i e, map snd l = genExprs es -> nth_error es i = Some e ->
  nth_error (exprBuckets es (map fst l)) i =
    match isConst e with Some c => Some c | None => nth_error (exprBuckets es (map fst l)) i end
  /\ (isConst e = None -> exists k, In (k, e) l /\ nth_error (exprBuckets es (map fst l)) i = Some (Z.of_nat k)).
Proof.
  induction es as [|x es IH]; intros l i e Hl Hi; [destruct i; discriminate|].
  unfold genExprs in Hl. cbn [filter] in Hl. fold (genExprs es) in Hl. cbn [exprBuckets].
  destruct (isConst x) as [z|] eqn:Ex.
  - destruct i as [|i]; cbn [nth_error] in *.
    + inversion Hi; subst. rewrite Ex. split; auto. discriminate.
    + now apply IH.
  - destruct l as [|[k y] l]; [discriminate|]. cbn [map fst snd] in *. injection Hl as -> Hl.
    destruct i as [|i]; cbn [nth_error] in *.
    + inversion Hi; subst. rewrite Ex. split; auto. intros _. exists k. split; [now left|auto].
    + destruct (IH l i e Hl Hi) as [H1 H2]. split; auto. intro Hc. destruct (H2 Hc) as (k' & H3 & H4). exists k'. split; [now right|auto].
Qed.

Lemma all_or : forall o g gs, Forall (compilable o 0) (g :: gs) -> compilable o 0 (XOr (g :: gs)).
Proof. intros o g gs HF. apply compilable_or. split; [discriminate|]. induction HF; cbn; auto. Qed.
Lemma all_fix : forall {X} (P : X -> Prop) l, Forall P l -> (fix go l := match l with [] => True | x :: r => P x /\ go r end) l.
Proof. intros X P l HF. induction HF; auto. Qed.

(** ** Deciding comparisons otherwise *)
Definition opRule (h : rule) (ty : optype) (x y : fastval) : bool :=
  match ty with
  | OpEquals => h CEq x y
  | OpLessThan => h CLt x y
  | OpLessEquals => h CLe x y
  | OpGreaterThan => h CGt x y
  | OpGreaterEquals => h CGe x y
  | OpMatches => h CLike x y
  | OpExists => true
  end.
Lemma opRule_ok : forall o h, lawful o h -> forall k ty x y, cmpOp k = Some ty ->
  (if snd (applyOp o ty x y) then fst (applyOp o ty x y) else opRule h ty x y) = h k x y.
Proof.
  intros o h HL k ty x y Ek. specialize (HL k x y). destruct k; inversion Ek; subst ty; cbn [applyOp opRule straight cmpHolds] in *;
    lazymatch type of HL with snd ?t = true -> _ => destruct t as [c []]; cbn [fst snd] in *; auto; symmetry; auto end.
Qed.
Lemma satBy_same : forall o root e, satBy o (cmpHolds o) root e = sat o root e.
Proof. reflexivity. Qed.
Lemma truthBy_same : forall o doc cur e, truthBy o (cmpHolds o) doc cur e = truth o doc cur e.
Proof. reflexivity. Qed.

(** ** The kind of the document *)
Lemma direct_lone : forall cv e e', lone cv e -> In e' (direct e) -> lone cv e'.
Proof.
  intros cv. apply direct_inherit; auto.
  - intros l x HP Hx. cbn [lone] in HP. eapply fix_all in HP; eauto.
  - intros l x HP Hx. cbn [lone] in HP. eapply fix_all in HP; eauto.
Qed.
Lemma direct_found : forall doc e e', loopsFound doc e -> In e' (direct e) -> loopsFound doc e'.
Proof.
  intros doc. apply direct_inherit; auto.
  - intros l x HP Hx. cbn [loopsFound] in HP. eapply fix_all in HP; eauto.
  - intros l x HP Hx. cbn [loopsFound] in HP. eapply fix_all in HP; eauto.
Qed.
Lemma root_fit : forall o g gs h ns A ow root, compilable o 0 (XOr (g :: gs)) -> regular (pathsOf 0 (XOr (g :: gs))) 0 (XOr (g :: gs)) ->
  compiled o g gs h ns A ow -> readable root (g :: gs) -> rootFit g gs ow root.
Proof.
  intros o g gs h ns A ow root HC HG HK HRd. unfold rootFit, readable in *. destruct root as [t x|es w|]; auto.
  - assert (lone 0 (XOr (g :: gs))) as HLo by (exact (all_fix _ _ HRd)).
    destruct ow as [|ad ow']; auto. exfalso.
    destruct (cd_ow _ _ _ _ _ _ _ HK ad (or_introl eq_refl)) as ([c k e] & HS & HQ). rewrite (SS_merge g gs) in HS.
    destruct (site_ctx g gs c k e HS) as (cv & P & b & HX & D & _).
    pose proof (ctx_facts o g gs HC HG 0 _ _ _ _ HX) as FA.
    assert (lone cv b) as HLb.
    { inversion HX as [|c' v' b' HB]; subst; auto. destruct HB as (c0 & k0 & m & i & HI & ->).
      destruct (site_inherit lone direct_lone (fun cv m v i b X => proj2 X) (XOr (g :: gs)) 0 0 0 HLo (le_n 0) _ _ _ HI) as [(_ & Hi)|(? & ? & ? & ? & ? & ? & _ & _ & _ & Hi)];
        exact (proj2 Hi). }
    pose proof (direct_lone cv b e HLb D) as HLe.
    destruct (site_in o g gs HC HG 0 _ _ _ _ _ _ HS HX) as (_ & Hc & _).
    assert (forall r0 q, (exists a, e = XExists a) \/ (exists kk l r, e = XCmp kk l r) -> In (r0, q) (frefs e) -> (cx r0 c = c -> two (curp c e)) ->
      ~ two (pathsOf cv e) /\ (cv <> 0 -> pathsOf 0 e = []) -> False) as X.
    { intros r0 q Hk Hf H2 [H3 H4]. rewrite (curp_is o g gs HC HG 0 _ _ _ _ _ _ HS HX Hk) in H2.
      destruct (Nat.eq_dec (cx r0 c) c) as [Ec|Ec]; [auto|].
      assert (r0 = 0) as -> by (unfold cx in Ec; destruct (Nat.eqb_spec r0 0); congruence). unfold cx in Ec. cbn [Nat.eqb] in Ec.
      apply in_paths in Hf. rewrite H4 in Hf; [destruct Hf|]. intro Z. apply FA in Z. congruence. }
    destruct (direct_kind _ _ D) as [(a & ->)|[(kk & l & r & -> & _)|(m & v & i & s & ->)]].
    + destruct HQ as (r0 & q & Hf & _ & H2). eapply X; eauto.
    + destruct HQ as (r0 & q & Hf & _ & H2). eapply X; eauto.
    + cbn [compilable] in Hc. destruct Hc as (_ & (q & -> & _) & _). destruct HQ as [_ H2]. destruct HLe as [H3 _].
      unfold loopP in H2. rewrite H3 in H2. destruct (Nat.eqb c 0); destruct H2 as (q1 & q2 & [<-|[]] & [<-|[]] & Y); contradiction.
  - intros k m v r q s HS H2. assert (loopsFound (CArr es w) (XOr (g :: gs))) as HF by (exact (all_fix _ _ HRd)).
    destruct (site_ctx g gs 0 k _ HS) as (cv & P & b & HX & D & _). inversion HX as [|c' v' b' HB]; subst.
    + exact (direct_found _ _ _ HF D H2).
    + destruct HB as (? & ? & ? & ? & _ & X). discriminate.
Qed.

(** ** The theorem *)
Theorem tree_status : forall o es g gs root, genExprs es = g :: gs ->
  Forall (compilable o 0) (g :: gs) -> Forall (regular (pathsOf 0 (XOr (g :: gs))) 0) (g :: gs) ->
  wf_cst root -> distinct root -> readable root (g :: gs) ->
  Forall (tame root 0 root) (g :: gs) -> Forall (looped root) (g :: gs) ->
  exists D H, transform o es = Ok D /\ d_heap D = Some H /\ exists t2,
    (ts_coll t2 = false -> forall h, lawful o h -> forall e, In e (g :: gs) -> satBy o h root e = sat o root e)
    /\ (ts_coll t2 = true -> exists e, In e (g :: gs) /\ mixed o root root e)
    /\ (exists f0, forall fuel, f0 <= fuel ->
         tMatch o H (d_tree D) root fuel (tFresh (d_slots D) (d_tree D)) = Ok (t2, existsb (sat o root) (g :: gs)))
    /\ (forall s i e, ms_data s = ts_data t2 -> nth_error es i = Some e -> isConst e = None -> expressionMatched D s i = Ok (sat o root e))
    /\ ((exists ms w, root = CObj ms w) -> Forall (fun e => early o root e <> None) (g :: gs) -> exists x s', idx H 0 = Ok x /\ x_elems x <> []
         /\ exists f0, forall fuel, f0 <= fuel ->
           tOA o H (d_tree D) root fuel (items root) x true (tFresh (d_slots D) (d_tree D)) = Ok (s', true, true))
    /\ ((exists ms w, root = CObj ms w) -> Forall anchored (g :: gs) -> items root <> [] -> exists x ta out tb b d, idx H 0 = Ok x /\ x_elems x <> []
         /\ (exists f0, forall fuel, f0 <= fuel ->
              tOA o H (d_tree D) root fuel (items root) x true (tFresh (d_slots D) (d_tree D)) = Ok (ta, out, out)
              /\ tAft o H (d_tree D) root fuel x ta = Ok (tb, b))
         /\ ts_stall tb = 0 /\ resolveAll (d_tree D) 0 (ts_data tb) = Ok d /\ isTrue d 0 = Ok (existsb (sat o root) (g :: gs))
         /\ forall s i e, ms_data s = d -> nth_error es i = Some e -> isConst e = None -> expressionMatched D s i = Ok (sat o root e)).
Proof.
  intros o es g gs root Eg HC HG WR HD Hobj HTm HLo.
  destruct (merge_compiled o g gs HC) as (t & ids & A & ow & Em & HK).
  destruct (transform_validates o es g gs t ids Eg Em) as [ETr _].
  destruct (transform_spec o es _ ETr) as [(X & _)|(g' & gs' & t' & ids' & Eg' & Em' & Etree & Eids & ED)]; [congruence|].
  rewrite Eg in Eg'. injection Eg' as <- <-. rewrite Em in Em'. injection Em' as <- <-.
  rewrite ED in ETr. clear ED. eexists. exists (t_heap t). split; [exact ETr|]. cbn [d_heap d_tree d_slots]. split; [reflexivity|].
  set (T := lay 0 0 (structures g gs)) in *. set (H := t_heap t) in *. set (E := XOr (g :: gs)) in *.
  assert (compilable o 0 E) as HC' by now apply all_or.
  assert (regular (pathsOf 0 E) 0 E) as HG' by (exact (all_fix _ _ HG)).
  assert (tame root 0 root E) as HTm' by (exact (all_fix _ _ HTm)).
  assert (laid T 0 0 (structures g gs)) as HL by apply lay_laid.
  assert (length T = fsize (structures g gs)) as HLen by apply lay_length.
  pose proof (wf_docOk o root WR HD) as HR.
  pose proof (heap_ok o g gs HC' HG' H (t_slot t) A ow HK T HL HLen) as HO.
  apply (root_fit o g gs H (t_slot t) A ow root HC' HG' HK) in Hobj.
  pose proof (cd_rep _ _ _ _ _ _ _ HK) as R. pose proof (cd_root _ _ _ _ _ _ _ HK) as HA0.
  set (sg := map (fun a : addr => if Nat.eqb (fst a) 0 then at_ (snd a) root else None) ow).
  assert (forall i q, own ow i 0 q -> nth_error sg i = Some (at_ q root)) as SG0.
  { intros i q Ho. unfold sg. rewrite nth_error_map. unfold own in Ho. now rewrite Ho. }
  assert (sgRel ow root 0 root sg) as HSg.
  { split; [apply map_length|]. split; auto. }
  assert (ctxAt g gs 0 0 (pathsOf 0 E) E) as HX by constructor.
  set (tr := fun ho => trN o H root ow (bf g gs) ho (length H) 0 root sg).
  assert (forall ho, Forall (wf_ev 0 (structures g gs)) (tr ho)) as HW.
  { intro ho. exact (wf_trace o H T root A ow (bf g gs) (vis g gs ow) HO ho (length H) 0 root sg 0 [] HA0). }
  destruct (C14_merged_final (structure g) (map structure gs) T (tr (asIs o)) HL HLen (HW _)) as (d & d' & Erun & Eres & Hbk & Htrue).
  (* the trace reports truth *)
  assert (forall hr ho, (forall k ty x y, cmpOp k = Some ty -> (if snd (applyOp o ty x y) then fst (applyOp o ty x y) else ho ty x y) = hr k x y) ->
    forall k e, In (k, e) (mplaces 0 g gs) -> feval (first_report (map den (tr ho))) k (structure e) = satBy o hr root e) as FS.
  { intros hr ho Hho k e Hk. assert (In e (g :: gs)) as He by (rewrite <- (mplaces_exprs gs g 0); apply (in_map snd) in Hk; exact Hk).
    rewrite Forall_forall in HC, HG, HLo. destruct (mplaces_in _ _ _ _ _ Hk) as [I1 I2].
    apply (feval_sites o hr root e k (first_report (map den (tr ho))) (pathsOf 0 E)); auto.
    - intros k' e' Hs. apply I1 in Hs. rewrite <- sites_or in Hs. fold E in Hs.
      assert (claim o g gs root hr 0 0 root (first_report (map den (tr ho)))) as CL.
      { exact (eval_all o g gs HC' HG' H (t_slot t) A ow HK T HL HLen root HR Hobj hr ho Hho (length H) 0 0 0 (pathsOf 0 E) E root sg HA0 (le_n _) HX HSg HR HTm'). }
      specialize (CL k' e' Hs). destruct e'; cbn [agree2]; auto; destruct CL as [->|(_ & -> & ->)]; auto.
    - intros j Hj. apply I2 in Hj. rewrite <- falses_or in Hj. fold E in Hj.
      destruct (first_report (map den (tr ho)) j) as [b|] eqn:Er; auto. exfalso.
      apply first_report_in in Er. apply in_map_iff in Er as (ev & Ed & Hev).
      destruct (tr_sites o g gs HC' HG' H (t_slot t) A ow HK T HLen root HR Hobj hr ho Hho (length H) 0 0 0 (pathsOf 0 E) E root sg ev HX HSg HR HA0 (le_n _) Hev) as (d1 & m & p & _ & _ & ES).
      destruct (falses_free E 0 0 j Hj) as (_ & L & N).
      destruct ES as [k2 e2 HS2 _ _|k2 md v2 r2 q2 sb es2 wcl l HS2 _ Hb _ _ _].
      + cbn [den] in Ed. inversion Ed; subst. eapply N; eauto.
      + unfold loopEvN in Ed. cbn [den] in Ed. apply (f_equal fst) in Ed. cbn [fst] in Ed. rewrite Hb in Ed. subst j.
        destruct (merged_atoms gs g 0) as (X1 & X2 & _).
        pose proof (bodies_ctx g gs _ _ _ _ _ _ HS2) as HB2. change (bf g gs 0) with (structures g gs) in HB2. unfold structures in HB2. rewrite X2 in HB2.
        exact (leaf_not_body _ _ _ _ _ L HB2 eq_refl). }
  assert (existsb (fun kf => feval (first_report (map den (tr (asIs o)))) (fst kf) (snd kf)) (mbuckets 0 (structure g) (map structure gs)) = existsb (sat o root) (g :: gs)) as EX.
  { pose proof (FS _ _ (asIs_ok o)) as FS'. clear FS.
    rewrite mplaces_buckets, <- (mplaces_exprs gs g 0). clear -FS'. revert FS'. generalize (mplaces 0 g gs) as l.
    induction l as [|[k e] l IHl]; intro FS; auto. cbn [map existsb fst snd]. rewrite IHl by (intros; apply FS; now right). now rewrite FS by now left. }
  (* the run *)
  set (Col := exists e, In e (g :: gs) /\ mixed o root root e).
  assert (mixed o root root E -> Col) as HCol.
  { unfold Col, E. generalize (g :: gs) as l. induction l as [|x l IHl]; [intros []|]. intros [X|X]; [exists x; split; [now left|auto]|].
    destruct (IHl X) as (e & He & Hm). exists e. split; [now right|auto]. }
  assert (sgOk o ow sg) as SGK.
  { split; [apply map_length|]. intros i w Hn. unfold sg in Hn. rewrite nth_error_map in Hn. destruct (nth_error ow i) as [[c q]|]; [|discriminate].
    cbn in Hn. destruct (Nat.eqb c 0); [|discriminate]. injection Hn as Hn. exact (docOk_at o _ _ _ HR Hn). }
  assert (okN o H root ow Col (length H) 0 root sg) as OKN.
  { exact (ok_all o g gs HC' HG' H (t_slot t) A ow HK T HLen root HR Hobj HTm' Col (length H) 0 0 0 (pathsOf 0 E) E [] root root sg HA0 HX HSg HR HTm' HCol eq_refl). }
  assert (inv T ow (bf g gs) 0 (tFresh (t_slot t) T)) as INV0.
  { assert (length (newState T) = length T) as Hd by (unfold newState; apply repeat_length).
    assert (forall j, st (newState T) j = SUnknown) as U.
    { intro j. unfold st, newState. destruct (nth_in_or_default j (repeat SUnknown (length T)) SUnknown) as [Hn|Hn]; auto. now apply repeat_spec in Hn. }
    split; [reflexivity|]. split.
    - split; [exact Hd|]. exists (fun _ => None). split; [apply INV_fresh; auto; intros j _; apply U|unfold on_atoms; congruence].
    - split; [|apply U]. cbn. rewrite repeat_length. symmetry. apply (rp_slots _ _ _ _ R). }
  assert (preSlots ow (vis g gs ow) 0 [] root sg (ts_slots (tFresh (t_slot t) T))) as PRE.
  { split.
    - intros i (v & b & q & HB & _). apply (PHeap.body_facts o g gs HC' HG' 0) in HB. tauto.
    - intros i r Ho. cbn [app] in Ho. specialize (SG0 i r Ho). split; auto. intro Hn. rewrite SG0, Hn. cbn [tFresh ts_slots].
      assert (i < t_slot t) as Hi by (rewrite <- (rp_slots _ _ _ _ R); apply nth_error_Some; unfold own in Ho; congruence).
      clear -Hi. revert i Hi. induction (t_slot t) as [|n IH]; intros i Hi; [lia|]. destruct i as [|i]; cbn; auto. apply IH. lia. }
  assert (ctx (bf g gs) 0) as CTX by constructor.
  assert (forall ho, exists s' out, evt (fun f => tExec o H T root f root 0 (tFresh (t_slot t) T)) (s', out)
    /\ res T ow (bf g gs) Col (inAt (bf g gs) 0 []) 0 (tFresh (t_slot t) T) (tr (asIs o)) (tr ho) s' out) as RUN.
  { intro ho. assert (execRun o H T root A ow (bf g gs) (vis g gs ow) ho Col (length H)) as XR by now apply exec_all.
    destruct (XR 0 root sg 0 [] (tFresh (t_slot t) T) HA0 (le_n _)) as (s' & out & Hev & RS & _); eauto. }
  destruct (RUN (asIs o)) as (s' & out & (f0 & Ef) & RS).
  pose proof (rs_run _ _ _ _ _ _ _ _ _ _ _ RS) as Hrun. cbn [tFresh ts_data] in Hrun. rewrite Erun in Hrun. injection Hrun as Hrun.
  exists (tSetData s' d'). cbn [tSetData ts_coll ts_data]. split; [|split; [|split; [|split; [|split]]]].
  - intros Hcl h HLaw e He.
    destruct (RUN (opRule h)) as (s2 & out2 & (f2 & Ef2) & RS2).
    assert (s2 = s') as -> by (pose proof (Ef2 (f0 + f2) ltac:(lia)) as X; rewrite (Ef (f0 + f2) ltac:(lia)) in X; congruence).
    pose proof (rs_alt _ _ _ _ _ _ _ _ _ _ _ RS2 Hcl) as Halt. cbn [tFresh ts_data] in Halt.
    destruct (C14_merged_final (structure g) (map structure gs) T (tr (opRule h)) HL HLen (HW _)) as (dh & dh' & Erunh & Eresh & Hbkh & _).
    rewrite Erunh in Halt. injection Halt as ->. rewrite <- Hrun, Eres in Eresh. injection Eresh as <-.
    rewrite <- (mplaces_exprs gs g 0) in He. apply in_map_iff in He as ((k & e') & X & Hk). cbn [snd] in X. subst e'.
    rewrite <- (FS _ _ (opRule_ok o h HLaw) k e Hk). change (sat o root e) with (satBy o (cmpHolds o) root e). rewrite <- (FS _ _ (asIs_ok o) k e Hk).
    assert (In (k, structure e) (mbuckets 0 (structure g) (map structure gs))) as Hm by (rewrite mplaces_buckets; apply in_map_iff; exists (k, e); auto).
    destruct (Hbk _ _ Hm) as [_ B2]. destruct (Hbkh _ _ Hm) as [_ B2h]. rewrite B2 in B2h. now injection B2h.
  - intro Hcl. destruct (rs_coll _ _ _ _ _ _ _ _ _ _ _ RS Hcl) as [X|X]; [discriminate|exact X].
  - exists f0. intros fuel Hf. unfold tMatch. rewrite (Ef fuel Hf). cbn [obind]. rewrite (rs_stall _ _ _ _ _ _ _ _ _ _ _ RS), <- Hrun, Eres. cbn [obind]. rewrite Htrue, EX. reflexivity.
  - intros sf i e Hdata Hi Hc.
    assert (ids = map fst (mplaces 0 g gs)) as Eids' by (rewrite Eids, mplaces_buckets, map_map; reflexivity).
    destruct (buckets_nth es (mplaces 0 g gs) i e) as [_ HB]; auto; [now rewrite mplaces_exprs|]. destruct (HB Hc) as (k & Hk & Hnth).
    unfold expressionMatched. cbn [d_buckets]. rewrite Eids', (idx_nth _ _ _ Hnth). cbn [obind].
    destruct (Z.ltb_spec (Z.of_nat k) 0); [lia|]. rewrite Nat2Z.id, Hdata.
    destruct (Hbk k (structure e)) as [B1 B2]; [rewrite mplaces_buckets; apply in_map_iff; exists (k, e); auto|].
    rewrite B1. cbn [obind]. rewrite B2. f_equal. now apply (FS _ _ (asIs_ok o)).
  - intros (ms0 & w0 & Eobj) HE.
    assert (exists x, nth_error H 0 = Some x) as (x & Ex).
    { pose proof (ho_len _ _ _ _ _ _ _ HO) as HLA. destruct (nth_error H 0) eqn:X; [eauto|]. apply nth_error_None in X. assert (0 < length A) by (apply nth_error_Some; congruence). lia. }
    assert (exists d, length H = S d) as (dd & Ed) by (destruct H; [discriminate|cbn; eauto]).
    rewrite Ed in OKN.
    assert (execRun o H T root A ow (bf g gs) (vis g gs ow) (asIs o) Col dd) as XR by now apply exec_all.
    destruct (items_run o H T root A ow (bf g gs) (vis g gs ow) (asIs o) Col HO dd XR 0 root sg 0 [] (tFresh (t_slot t) T) x HA0 Ex) as (s2 & o2 & Hev & RS2 & _); auto; [lia|].
    set (ch := flat_map _ (items root)) in RS2.
    assert (forall k e, In (Site 0 k e) (sites 0 0 E) -> agreeE o root (first_report (map den ch)) k e) as AE.
    { intros k e HS. unfold ch. eapply (members_report o g gs HC' HG' H (t_slot t) A ow HK T HL HLen root HR ms0 w0 Eobj HTm' dd sg x); auto. lia. }
    assert (x_elems x = [] -> ch = []) as CH0.
    { intro El. unfold ch. generalize (items root) as l. induction l as [|[[kk| | |] w] l IH]; auto. cbn [flat_map]. rewrite IH. unfold childN. cbn [fst snd]. now rewrite El. }
    assert (Forall (wf_ev 0 (structures g gs)) ch) as WCh.
    { specialize (HW (asIs o)). unfold tr in HW. rewrite Ed, trN_S, Ex in HW. rewrite Eobj in HW at 1. cbn match in HW.
      destruct (x_elems x) eqn:El; [rewrite CH0 by auto; constructor|]. apply Forall_app in HW. apply HW. }
    destruct (session_fresh _ T ch HL HLen WCh) as (dc & Erc & HI & HAt & _).
    assert (ov (first_report (map den ch)) 0 (structures g gs) <> None) as KN.
    { unfold structures in *. rewrite (ov_merged _ _ _ _ (on_atoms_neors _ _ _ _ HAt)).
      destruct (all_some _) eqn:EA; [discriminate|]. exfalso. revert EA. apply all_some_some. intros y Hy. apply in_map_iff in Hy as ((k & f) & <- & Hk).
      pose proof (merged_part _ _ _ _ _ _ HAt Hk) as HAk. cbn [fst snd]. rewrite ov_keval by auto.
      rewrite mplaces_buckets in Hk. apply in_map_iff in Hk as ((k' & e) & Eq & Hk). injection Eq as -> <-. cbn [snd].
      assert (In e (g :: gs)) as He by (rewrite <- (mplaces_exprs gs g 0); apply (in_map snd) in Hk; exact Hk).
      rewrite Forall_forall in HE, HC. destruct (early o root e) as [b|] eqn:Ee; [|now destruct (HE e He)].
      rewrite (keval_early o root e k (first_report (map den ch)) (HC e He)) with (b := b); auto; [discriminate|].
      intros k' e' Hs. apply AE. destruct (mplaces_in _ _ _ _ _ Hk) as [I1 _]. apply I1 in Hs. now rewrite <- sites_or in Hs. }
    pose proof (rs_run _ _ _ _ _ _ _ _ _ _ _ RS2) as Hr2. cbn [tFresh ts_data] in Hr2. rewrite Erc in Hr2. injection Hr2 as Hr2.
    pose proof (rs_out _ _ _ _ _ _ _ _ _ _ _ RS2) as Ho2. rewrite <- Hr2 in Ho2.
    assert (o2 = true) as ->.
    { destruct o2; auto. exfalso. apply KN. now apply (INV_unknown _ _ _ _ HI). }
    exists x, s2. split; [now apply idx_nth|]. split; [|exact Hev].
    intro El. apply KN. rewrite (CH0 El). apply ov_empty. reflexivity.
  - intros (ms0 & w0 & Eobj) HAn Hit.
    assert (exists x, nth_error H 0 = Some x /\ nodeOk o A ow (bf g gs) (vis g gs ow) 0 x 0 []) as (x & Ex & Hx) by (eapply node_addr; eauto).
    assert (exists d, length H = S d) as (dd & Ed) by (destruct H; [discriminate|cbn; eauto]).
    rewrite Ed in OKN. pose proof (OKN x Ex) as (_ & (_ & HCa) & _ & _ & Hoka).
    assert (anchored E) as HAE by (split; [discriminate|exact (all_fix _ _ HAn)]).
    destruct (anchored_all o g gs HC' HG' HAE) as [AA AS].
    pose proof (anchored_ops o g gs HC' HG' H (t_slot t) A ow HK x AA Ex) as Eops.
    pose proof (anchored_elems o g gs HC' HG' H (t_slot t) A ow HK x AA AS Ex) as Nel.
    assert (execRun o H T root A ow (bf g gs) (vis g gs ow) (asIs o) Col dd) as XR by now apply exec_all.
    destruct (items_run o H T root A ow (bf g gs) (vis g gs ow) (asIs o) Col HO dd XR 0 root sg 0 [] (tFresh (t_slot t) T) x HA0 Ex) as (sa & out1 & Hev & RS2 & Pv & Pb); auto; [lia|].
    set (ch := flat_map _ (items root)) in RS2. set (af := aftN o H root ow (bf g gs) (asIs o) dd sg x).
    assert (tr (asIs o) = (ch ++ af) ++ af) as Etr.
    { unfold tr. rewrite Ed, trN_S, Ex. rewrite Eobj at 1. cbn match. fold ch. fold af. unfold opsN. rewrite Eops. cbn [map app]. fold af.
      destruct (x_elems x); [contradiction|]. destruct (items root); [contradiction|]. now rewrite app_assoc. }
    assert (Forall (wf_ev 0 (structures g gs)) (ch ++ af)) as WCh.
    { specialize (HW (asIs o)). rewrite Etr in HW. apply Forall_app in HW. apply HW. }
    assert (exists tb b, evt (fun f => tAft o H T root f x sa) (tb, b) /\ ts_stall tb = 0
      /\ runEvs T 0 (ch ++ af) (newState T) = Ok (ts_data tb)) as (tb & b & Hev2 & Stb & Rtb).
    { pose proof (rs_run _ _ _ _ _ _ _ _ _ _ _ RS2) as Hr2. cbn [tFresh ts_data] in Hr2. destruct out1.
      - destruct RS2 as [R1 R2 R3 R4 R5 [_ R6] R7 R8 R9].
        destruct (aft_skip o H T root A ow (bf g gs) (vis g gs ow) HO 0 x [] sa Hx R3 R6 R4) as (b & Ev2).
        exists sa, b. split; auto. split; auto. rewrite runEvs_app, Hr2. cbn [obind]. eapply run_id; eauto.
        apply Forall_app in WCh. apply WCh.
      - destruct (aft_run o H T root A ow (bf g gs) (vis g gs ow) (asIs o) Col HO HR dd XR 0 x 0 [] sg sa Hx CTX) as (tb & b & Ev2 & RS3); auto; [lia| | |].
        { eapply res_inv; eauto. }
        { intros i [Hv|(k & r & Ho)]; [now apply Pv|eapply Pb; eauto]. }
        exists tb, b. split; auto. split; [exact (rs_stall _ _ _ _ _ _ _ _ _ _ _ RS3)|]. rewrite runEvs_app, Hr2. cbn [obind]. exact (rs_run _ _ _ _ _ _ _ _ _ _ _ RS3). }
    destruct (C14_merged_final (structure g) (map structure gs) T (ch ++ af) HL HLen WCh) as (d2 & d2' & Erun2 & Eres2 & Hbk2 & Htrue2).
    rewrite Rtb in Erun2. injection Erun2 as <-.
    assert (forall k, first_report (map den (ch ++ af)) k = first_report (map den (tr (asIs o))) k) as FR.
    { intro k. rewrite Etr, (map_app _ (ch ++ af) af), first_report_app. destruct (first_report (map den (ch ++ af)) k) as [y|] eqn:E1; auto.
      destruct (first_report (map den af) k) as [y|] eqn:E2; auto. exfalso. apply first_report_in in E2.
      destruct (first_report_some (map den (ch ++ af)) k y) as [y' X]; [rewrite map_app; apply in_app_iff; auto|congruence]. }
    exists x, sa, out1, tb, b, d2'. split; [now apply idx_nth|]. split; auto. split.
    { destruct Hev as [f1 Hf1], Hev2 as [f2 Hf2]. exists (f1 + f2). intros fuel Hf. split; [|apply Hf2; lia]. rewrite Hf1 by lia. unfold ret_of.
      destruct (items root); [contradiction|]. now destruct out1. }
    split; auto. split; auto. split.
    { rewrite Htrue2, <- EX. f_equal. assert (forall l, existsb (fun kf => feval (first_report (map den (ch ++ af))) (fst kf) (snd kf)) l = existsb (fun kf => feval (first_report (map den (tr (asIs o)))) (fst kf) (snd kf)) l) as X.
      { induction l as [|y l IHl]; auto. cbn [existsb]. rewrite IHl. f_equal. apply feval_ext. auto. }
      apply X. }
    intros sf i e Hdata Hi Hc.
    assert (ids = map fst (mplaces 0 g gs)) as Eids' by (rewrite Eids, mplaces_buckets, map_map; reflexivity).
    destruct (buckets_nth es (mplaces 0 g gs) i e) as [_ HB]; auto; [now rewrite mplaces_exprs|]. destruct (HB Hc) as (k & Hk & Hnth).
    unfold expressionMatched. cbn [d_buckets]. rewrite Eids', (idx_nth _ _ _ Hnth). cbn [obind].
    destruct (Z.ltb_spec (Z.of_nat k) 0); [lia|]. rewrite Nat2Z.id, Hdata.
    destruct (Hbk2 k (structure e)) as [B1 B2]; [rewrite mplaces_buckets; apply in_map_iff; exists (k, e); auto|].
    rewrite B1. cbn [obind]. rewrite B2. f_equal. rewrite (feval_ext _ _ _ _ (fun j _ => FR j)). now apply (FS _ _ (asIs_ok o)).
Qed.
Theorem match_status : forall o es g gs w1 root w2, genExprs es = g :: gs ->
  Forall (compilable o 0) (g :: gs) -> Forall (regular (pathsOf 0 (XOr (g :: gs))) 0) (g :: gs) ->
  ws w1 -> wf_cst root -> num_stop w2 -> distinct root -> readable root (g :: gs) ->
  Forall (tame root 0 root) (g :: gs) -> Forall (looped root) (g :: gs) ->
  exists D, transform o es = Ok D /\ exists c,
    (c = false -> forall h, lawful o h -> forall e, In e (g :: gs) -> satBy o h root e = sat o root e)
    /\ (c = true -> exists e, In e (g :: gs) /\ mixed o root root e)
    /\ exists f0, forall fuel, f0 <= fuel -> exists s,
      match_ fuel o D (doc_text w1 root w2) (newMatcher D) = Ok (s, Some (existsb (sat o root) (g :: gs))) /\ ms_coll s = c
      /\ forall i e, nth_error es i = Some e -> isConst e = None -> expressionMatched D s i = Ok (sat o root e).
Proof.
  intros o es g gs w1 root w2 Eg HC HG W1 WR W2 HD Hobj HTm HLo.
  destruct (tree_status o es g gs root Eg HC HG WR HD Hobj HTm HLo) as (D & H & ED & EH & t2 & C1 & C2 & (f0 & TM) & EM & _).
  exists D. split; auto. exists (ts_coll t2). split; auto. split; auto. exists f0. intros fuel Hf.
  pose proof (match_sim o H (d_tree D) w1 root w2 W1 WR W2 _ eq_refl fuel D (newMatcher D) (tFresh (d_slots D) (d_tree D)) EH eq_refl (rel_fresh _ D)) as SIM.
  rewrite (TM fuel Hf) in SIM. destruct SIM as ([sf rf] & Em & RL & Er). cbn [fst snd] in *. subst rf. exists sf. split; [exact Em|].
  split; [apply RL|]. intros i e. apply EM. apply RL.
Qed.

Theorem match_decides : forall o es g gs w1 root w2, genExprs es = g :: gs ->
  Forall (compilable o 0) (g :: gs) -> Forall (regular (pathsOf 0 (XOr (g :: gs))) 0) (g :: gs) ->
  ws w1 -> wf_cst root -> num_stop w2 -> distinct root -> readable root (g :: gs) ->
  Forall (tame root 0 root) (g :: gs) -> Forall (looped root) (g :: gs) ->
  exists D, transform o es = Ok D /\ exists f0, forall fuel, f0 <= fuel -> exists s,
    match_ fuel o D (doc_text w1 root w2) (newMatcher D) = Ok (s, Some (existsb (sat o root) (g :: gs)))
    /\ forall i e, nth_error es i = Some e -> isConst e = None -> expressionMatched D s i = Ok (sat o root e).
Proof.
  intros o es g gs w1 root w2 Eg HC HG W1 WR W2 HD Hobj HTm HLo.
  destruct (match_status o es g gs w1 root w2 Eg HC HG W1 WR W2 HD Hobj HTm HLo) as (D & ED & c & _ & _ & f0 & HM).
  exists D. split; auto. exists f0. intros fuel Hf. destruct (HM fuel Hf) as (s & H1 & _ & H2). eauto.
Qed.
