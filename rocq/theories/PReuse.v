(** Slots numbered higher make no difference. *)
From Verif Require Import Base MTokenizer MLit MFastVal SEvents MBinTree MSession MExpr MTransform MMatcher MReuse PExpr PCompile.
From Coq Require Import List NArith ZArith Arith Lia Bool.
Import ListNotations.
Open Scope nat_scope.

Definition om {A B : Type} (f : A -> B) (x : outcome A) : outcome B :=
  match x with Ok a => Ok (f a) | Err => Err | Panic => Panic | OutOfFuel => OutOfFuel end.
Lemma om_bind : forall (A B C : Type) (x : outcome A) (k : A -> outcome B) (g : B -> C), om g (obind x k) = obind x (fun a => om g (k a)).
Proof. intros. destruct x; reflexivity. Qed.
Lemma bind_om : forall (A B C : Type) (x : outcome A) (f : A -> B) (k : B -> outcome C), obind (om f x) k = obind x (fun a => k (f a)).
Proof. intros. destruct x; reflexivity. Qed.
Lemma bind_ext : forall (A B : Type) (x : outcome A) (k k' : A -> outcome B), (forall a, k a = k' a) -> obind x k = obind x k'.
Proof. intros A B x k k' H. destruct x; cbn; auto. Qed.
Lemma bind_sim : forall (A A' B : Type) (h : A -> A') (x : outcome A) x' (k : A -> outcome B) k', x' = om h x -> (forall a, k' (h a) = k a) -> obind x' k' = obind x k.
Proof. intros A A' B h x x' k k' -> H. rewrite bind_om. now apply bind_ext. Qed.
Lemma idx_map : forall (A B : Type) (f : A -> B) l n, idx (map f l) n = om f (idx l n).
Proof. intros A B f l n. unfold idx. rewrite nth_error_map. destruct (nth_error l n); reflexivity. Qed.
Lemma upd_map : forall (A B : Type) (f : A -> B) l n x, upd (map f l) n (f x) = map f (upd l n x).
Proof. intros A B f l. induction l as [|y l IH]; intros [|n] x; cbn; try reflexivity. now rewrite IH. Qed.

Section Shift.
  Variable k : nat.
  Definition shN (s : nat) : nat := match s with O => O | S i => S (k + i) end.
  Fixpoint shD (d : dref) : dref :=
    match d with
    | DSlot s => DSlot (shN s)
    | DFunc n ps => DFunc n (map shD ps)
    | DActive => DActive
    | DVal v => DVal v
    end.
  Definition shOp (op : opnode) : opnode := OpN (op_bucket op) (op_op op) (option_map shD (op_lhs op)) (option_map shD (op_rhs op)).
  Definition shL (l : loopnode) : loopnode := LoopN (lp_bucket l) (lp_mode l) (option_map shD (lp_target l)) (lp_node l).
  Definition shA (a : afternode) : afternode := AfterN (map shOp (af_ops a)) (map shL (af_loops a)).
  Definition shX (x : execnode) : execnode := ExecN (shN (x_store x)) (x_elems x) (map shOp (x_ops x)) (map shL (x_loops x)) (option_map shA (x_after x)).
  Definition shH (h : list execnode) : list execnode := map shX h.
  Definition shT (t : tr) : tr := Tr (shH (t_heap t)) (t_tree t) (t_bucket t) (t_active t) (k + t_slot t) (t_ctx t).

  Lemma heap_upd : forall h n x, upd (shH h) n (shX x) = shH (upd h n x).
  Proof. intros. apply upd_map. Qed.
  Lemma walk_sh : forall path h n, walk (shH h) n path = om (fun '(h, n) => (shH h, n)) (walk h n path).
  Proof.
    induction path as [|e path IH]; intros h n; [reflexivity|]. cbn [walk]. unfold shH at 1. rewrite idx_map, bind_om, om_bind. apply bind_ext. intro x.
    change (x_elems (shX x)) with (x_elems x). destruct (lookup e (x_elems x)) as [c|]; [apply IH|]. rewrite <- IH.
    replace (length (shH h)) with (length h) by (unfold shH; now rewrite map_length).
    change (setElems (shX x) (x_elems x ++ [(e, length h)])) with (shX (setElems x (x_elems x ++ [(e, length h)]))).
    rewrite heap_upd. unfold shH. now rewrite map_app.
  Qed.
  Lemma getExec_sh : forall t r, getExecNode (shT t) r = om (fun '(t, n) => (shT t, n)) (getExecNode t r).
  Proof. intros t r. unfold getExecNode. cbn [shT t_heap]. rewrite walk_sh, bind_om, om_bind. apply bind_ext. now intros [h n]. Qed.
  Lemma store_sh : forall t n, storeExecNode (shT t) n = om (fun '(t, s) => (shT t, shN s)) (storeExecNode t n).
  Proof.
    intros t n. unfold storeExecNode. cbn [shT t_heap t_slot t_tree t_bucket t_active t_ctx]. unfold shH. rewrite idx_map, bind_om, om_bind. apply bind_ext. intro x.
    cbn [shX x_store]. destruct (x_store x) as [|i] eqn:E; cbn [shN Nat.eqb om]; [|reflexivity].
    change (setStore (shX x) (S (k + t_slot t))) with (shX (setStore x (S (t_slot t)))). fold (shH (t_heap t)). rewrite heap_upd. unfold shT. cbn [t_heap t_slot t_tree t_bucket t_active t_ctx].
    now rewrite Nat.add_succ_r.
  Qed.
  Lemma getAfter_sh : forall t n, getAfterNode (shT t) n = om shT (getAfterNode t n).
  Proof.
    intros t n. unfold getAfterNode. cbn [shT t_heap]. unfold shH at 1. rewrite idx_map, bind_om, om_bind. apply bind_ext. intro x. cbn [shX x_after].
    destruct (x_after x); cbn [option_map om]; [reflexivity|]. fold (shX x).
    change (setAfter (shX x) (Some (AfterN [] []))) with (shX (setAfter x (Some (AfterN [] [])))). rewrite heap_upd. reflexivity.
  Qed.
  Lemma resolveRefs_sh : forall t l, resolveRefs (shT t) l = resolveRefs t l.
  Proof. intros t l. induction l as [|f l IH]; [reflexivity|]. cbn [resolveRefs]. change (resolveRef (shT t) f) with (resolveRef t f). now rewrite IH. Qed.
  Lemma pick_sh : forall t e, pickBaseNode (shT t) e = om (fun '(t, b) => (shT t, b)) (pickBaseNode t e).
  Proof.
    intros t e. unfold pickBaseNode. rewrite om_bind. apply bind_ext. intro fs. rewrite resolveRefs_sh, om_bind. apply bind_ext. intro refs.
    change (findBestRoot (shT t) refs) with (findBestRoot t refs). rewrite om_bind. apply bind_ext. intros [best na]. rewrite getExec_sh, bind_om, om_bind. apply bind_ext. intros [t1 n].
    destruct na; [|reflexivity]. rewrite getAfter_sh, bind_om, om_bind. reflexivity.
  Qed.
  Lemma addOp_sh : forall t b op, addOp (shT t) b (shOp op) = om shT (addOp t b op).
  Proof.
    intros t [n|n] op; cbn [addOp shT t_heap]; unfold shH at 1; rewrite idx_map, bind_om, om_bind; apply bind_ext; intro x.
    - cbn [om]. replace (setOps (shX x) (x_ops (shX x) ++ [shOp op])) with (shX (setOps x (x_ops x ++ [op]))); [now rewrite heap_upd|].
      unfold setOps, shX. cbn [x_store x_elems x_ops x_loops x_after]. now rewrite map_app.
    - cbn [shX x_after]. destruct (x_after x) as [a|]; cbn [option_map]; [|reflexivity]. fold (shX x). cbn [om].
      replace (setAfter (shX x) (Some (AfterN (af_ops (shA a) ++ [shOp op]) (af_loops (shA a))))) with (shX (setAfter x (Some (AfterN (af_ops a ++ [op]) (af_loops a))))); [now rewrite heap_upd|].
      unfold setAfter, shX, shA. cbn [x_store x_elems x_ops x_loops x_after option_map af_ops af_loops]. now rewrite map_app.
  Qed.
  Lemma addLoop_sh : forall t b l, addLoop (shT t) b (shL l) = om shT (addLoop t b l).
  Proof.
    intros t [n|n] l; cbn [addOp addLoop shL lp_target]; destruct (lp_target l) as [[| | |]|] eqn:El; cbn [option_map shD]; try reflexivity;
      cbn [shT t_heap]; unfold shH at 1; rewrite idx_map, bind_om, om_bind; apply bind_ext; intro x.
    - cbn [om]. replace (setLoops (shX x) (x_loops (shX x) ++ [shL l])) with (shX (setLoops x (x_loops x ++ [l]))); [now rewrite heap_upd|].
      unfold setLoops, shX. cbn [x_store x_elems x_ops x_loops x_after]. now rewrite map_app.
    - cbn [shX x_after]. destruct (x_after x) as [a|]; cbn [option_map]; [|reflexivity]. fold (shX x). cbn [om].
      replace (setAfter (shX x) (Some (AfterN (af_ops (shA a)) (af_loops (shA a) ++ [shL l])))) with (shX (setAfter x (Some (AfterN (af_ops a) (af_loops a ++ [l]))))); [now rewrite heap_upd|].
      unfold setAfter, shX, shA. cbn [x_store x_elems x_ops x_loops x_after option_map af_ops af_loops]. now rewrite map_app.
  Qed.
  Lemma dataRefIn_sh : forall o e b t, dataRefIn o e b (shT t) = om (fun '(t, d) => (shT t, shD d)) (dataRefIn o e b t).
  Proof.
    intros o e. induction e as [| |g|sa|sa|sa|a IH|l IH|l IH|r p|n l IH|m v i s IHi IHs|a IH|a IH|c l r IHl IHr] using expr_ind'; intros b t;
      try (cbn [dataRefIn]; rewrite om_bind; apply bind_ext; reflexivity).
    - cbn [dataRefIn]. change (resolveRef (shT t) (r, p)) with (resolveRef t (r, p)). rewrite om_bind. apply bind_ext. intro rr. rewrite getExec_sh, bind_om, om_bind. apply bind_ext. intros [t1 n].
      destruct (isBase b n); [reflexivity|]. rewrite store_sh, bind_om, om_bind. apply bind_ext. now intros [t2 s].
    - rewrite !dataRefIn_func. rewrite om_bind.
      assert (dataRefList o l b (shT t) = om (fun '(t, ps) => (shT t, map shD ps)) (dataRefList o l b t)) as ->; [|rewrite bind_om; apply bind_ext; now intros [t1 ps]].
      revert t. induction IH as [|x l Hx Hl IHl]; intro t; [reflexivity|]. cbn [dataRefList]. rewrite Hx, bind_om, om_bind. apply bind_ext. intros [t1 p1]. rewrite IHl, bind_om, om_bind. apply bind_ext. now intros [t2 ps].
  Qed.
  Lemma makeRef_sh : forall o e b t, makeDataRef o e b (shT t) = om (fun '(t, d) => (shT t, option_map shD d)) (makeDataRef o e b t).
  Proof.
    intros o e b t.
    assert (forall x, (do (t1, d) <- dataRefIn o x b (shT t); Ok (t1, Some d)) = om (fun '(t, d) => (shT t, option_map shD d)) (do (t1, d) <- dataRefIn o x b t; Ok (t1, Some d))) as X.
    { intro x. rewrite dataRefIn_sh, bind_om, om_bind. apply bind_ext. now intros [t1 d]. }
    destruct e; try apply X. cbn [makeDataRef]. change (resolveRef (shT t) (root, path)) with (resolveRef t (root, path)). rewrite om_bind. apply bind_ext. intro rr.
    rewrite getExec_sh, bind_om, om_bind. apply bind_ext. intros [t1 n]. destruct (isBase b n); [reflexivity|]. rewrite store_sh, bind_om, om_bind. apply bind_ext. now intros [t2 s].
  Qed.
  Lemma openLeft_sh : forall ty t, openLeft ty (shT t) = om shT (openLeft ty t).
  Proof.
    intros ty t. unfold openLeft. cbn [shT t_active t_tree]. rewrite om_bind. apply bind_ext. intro T. cbn [newBucket setTree t_tree t_active]. rewrite om_bind. apply bind_ext. reflexivity.
  Qed.
  Lemma openRight_sh : forall b t, openRight b (shT t) = om shT (openRight b t).
  Proof. intros b t. unfold openRight. cbn [newBucket setActive shT t_tree t_active]. rewrite om_bind. apply bind_ext. reflexivity. Qed.
  Lemma exists_sh : forall o e t, transformExists o e (shT t) = om shT (transformExists o e t).
  Proof.
    intros o e t. unfold transformExists. rewrite pick_sh, bind_om, om_bind. apply bind_ext. intros [t1 b]. rewrite makeRef_sh, bind_om, om_bind. apply bind_ext. intros [t2 d]. rewrite <- addOp_sh. reflexivity.
  Qed.
  Lemma comparison_sh : forall o e op l r t, transformComparison o e op l r (shT t) = om shT (transformComparison o e op l r t).
  Proof.
    intros o e op l r t. unfold transformComparison. rewrite pick_sh, bind_om, om_bind. apply bind_ext. intros [t1 b]. rewrite makeRef_sh, bind_om, om_bind. apply bind_ext. intros [t2 dl].
    rewrite makeRef_sh, bind_om, om_bind. apply bind_ext. intros [t3 dr]. rewrite <- addOp_sh. reflexivity.
  Qed.
  Lemma not_sh : forall (f : tr -> outcome tr) t, (forall t, f (shT t) = om shT (f t)) -> transformNot f (shT t) = om shT (transformNot f t).
  Proof. intros f t H. unfold transformNot. rewrite openLeft_sh, bind_om, om_bind. apply bind_ext. auto. Qed.
  Lemma bin_sh : forall ty (f g : tr -> outcome tr) t, (forall t, f (shT t) = om shT (f t)) -> (forall t, g (shT t) = om shT (g t)) ->
    transformBin ty f g (shT t) = om shT (transformBin ty f g t).
  Proof.
    intros ty f g t Hf Hg. unfold transformBin. rewrite openLeft_sh, bind_om, om_bind. apply bind_ext. intro t1. rewrite Hf, bind_om, om_bind. apply bind_ext. intro t2.
    change (t_active (shT t)) with (t_active t). rewrite openRight_sh, bind_om, om_bind. apply bind_ext. auto.
  Qed.
  Lemma one_sh : forall o e t, transformOne o e (shT t) = om shT (transformOne o e t).
  Proof.
    intros o e. induction e as [| |g|sa|sa|sa|a IH|l IH|l IH|r p|n l IH|m v i s IHi IHs|a IH|a IH|c l r IHl IHr] using expr_ind'; intro t; try reflexivity.
    - cbn [transformOne]. now apply not_sh.
    - rewrite !transformOne_and. revert t. induction IH as [|a l Ha Hl IHl]; intro t; [reflexivity|]. cbn [transformChain]. destruct l as [|a2 l]; [apply Ha|]. now apply bin_sh.
    - rewrite !transformOne_or. revert t. induction IH as [|a l Ha Hl IHl]; intro t; [reflexivity|]. cbn [transformChain]. destruct l as [|a2 l]; [apply Ha|]. now apply bin_sh.
    - cbn [transformOne]. unfold transformLoop. rewrite pick_sh, bind_om, om_bind. apply bind_ext. intros [t1 b]. rewrite makeRef_sh, bind_om, om_bind. apply bind_ext. intros [t2 d].
      rewrite openLeft_sh, bind_om, om_bind. apply bind_ext. intro t3.
      replace (length (t_heap (shT t3))) with (length (t_heap t3)) by (cbn [shT t_heap]; unfold shH; now rewrite map_length).
      replace (setHeap (shT t3) (t_heap (shT t3) ++ [emptyExec])) with (shT (setHeap t3 (t_heap t3 ++ [emptyExec]))) by (unfold shT, setHeap, shH; cbn [t_heap t_tree t_bucket t_active t_slot t_ctx]; now rewrite map_app).
      set (t4 := setHeap t3 (t_heap t3 ++ [emptyExec])). change (LoopN (t_active (shT t4)) m (option_map shD d) (length (t_heap t3))) with (shL (LoopN (t_active t4) m d (length (t_heap t3)))).
      rewrite addLoop_sh, bind_om, om_bind. apply bind_ext. intro t5. change (pushContext (shT t5) v (length (t_heap t3))) with (shT (pushContext t5 v (length (t_heap t3)))).
      rewrite IHs, bind_om, om_bind. apply bind_ext. intro t6. unfold popContext. cbn [shT t_ctx]. destruct (t_ctx t6) as [|[w q] z]; [reflexivity|]. destruct (Nat.eqb q _); reflexivity.
    - cbn [transformOne]. apply exists_sh.
    - cbn [transformOne]. apply not_sh, exists_sh.
    - destruct c; cbn [transformOne]; try apply comparison_sh. apply not_sh. intro. apply comparison_sh.
  Qed.
  Lemma merge_sh : forall o l t, transformMerge o l (shT t) = om (fun '(t, ids) => (shT t, ids)) (transformMerge o l t).
  Proof.
    intros o l. induction l as [|a l IH]; intro t; [reflexivity|]. cbn [transformMerge]. destruct l as [|a2 l].
    - rewrite one_sh, bind_om, om_bind. apply bind_ext. reflexivity.
    - rewrite openLeft_sh, bind_om, om_bind. apply bind_ext. intro t1. rewrite one_sh, bind_om, om_bind. apply bind_ext. intro t2. change (t_active (shT t)) with (t_active t).
      rewrite openRight_sh, bind_om, om_bind. apply bind_ext. intro t3. rewrite IH, bind_om, om_bind. apply bind_ext. now intros [t4 ids].
  Qed.
  Definition shDef (D : matchdef) : matchdef :=
    match d_heap D with
    | None => D
    | Some h => MatchDef (Some (shH h)) (d_tree D) (d_buckets D) (k + d_slots D)
    end.
  Lemma transform_sh : forall o es, transformFrom k o es = om shDef (transform o es).
  Proof.
    intros o es. unfold transformFrom, transform. destruct (genExprs es) as [|g gs]; [reflexivity|]. rewrite om_bind.
    replace (Tr [emptyExec] [Node NLeaf 0 0 0] 1 0 k []) with (shT tr0) by (unfold shT, tr0; cbn [t_heap t_tree t_bucket t_active t_slot t_ctx]; rewrite Nat.add_0_r; reflexivity).
    rewrite merge_sh, bind_om. apply bind_ext. intros [t ids]. cbn [shT t_tree t_bucket t_heap t_slot]. destruct (validate (t_tree t)); try reflexivity. destruct (Nat.eqb _ _); reflexivity.
  Qed.

  (** ** Running *)
  Variable pad : list (nat * nat).
  Hypothesis padk : length pad = k.
  Definition shS (s : mst) : mst := setSlots s (pad ++ ms_slots s).
  Definition shE (E : menv) : menv := MEnv (me_o E) (shH (me_heap E)) (me_tree E) (me_doc E).
  Lemma idx_pad : forall l i, idx (pad ++ l) (k + i) = idx l i.
  Proof. intros l i. unfold idx. rewrite nth_error_app2 by lia. now replace (k + i - length pad) with i by lia. Qed.
  Lemma upd_pad : forall l i x, upd (pad ++ l) (k + i) x = pad ++ upd l i x.
  Proof. intros l i x. rewrite <- padk. clear padk. induction pad as [|y r IH]; [reflexivity|]. cbn [app length upd Nat.add]. now rewrite IH. Qed.
  Lemma slot_sh : forall E slots s, literalFromSlot (shE E) (pad ++ slots) (shN s) = literalFromSlot E slots s.
  Proof. intros E slots [|i]; [reflexivity|]. cbn [shN literalFromSlot]. rewrite idx_pad. reflexivity. Qed.
  Lemma resolve_sh : forall o sv sv' lit, (forall s, sv' (shN s) = sv s) -> forall d, resolveParam o sv' (shD d) lit = resolveParam o sv d lit.
  Proof.
    intros o sv sv' lit H. fix F 1. intros [|s|name ps|v]; try reflexivity.
    - cbn [shD resolveParam]. apply H.
    - cbn [shD resolveParam]. destruct (funLookup name funTable) as [[f|f]|]; [| |reflexivity]; destruct ps as [|p1 ps]; cbn [map]; try reflexivity; rewrite (F p1); [reflexivity|].
      apply bind_ext. intro a. destruct ps as [|p2 ps]; cbn [map]; [reflexivity|]. now rewrite (F p2).
  Qed.
  Lemma operand_sh : forall o sv sv' lit d, (forall s, sv' (shN s) = sv s) -> MMatcher.operand o sv' (option_map shD d) lit = MMatcher.operand o sv d lit.
  Proof.
    intros o sv sv' lit [d|] H; [|reflexivity]. cbn [option_map MMatcher.operand]. rewrite (resolve_sh o sv sv' lit H). apply bind_ext. intro v. destruct d; reflexivity.
  Qed.
  Lemma matchOp_sh : forall E op lit s, matchOp (shE E) (shOp op) lit (shS s) = om shS (matchOp E op lit s).
  Proof.
    intros E op lit s. unfold matchOp. cbn [shOp op_bucket shS setSlots ms_data ms_slots ms_stall me_o shE me_tree]. rewrite om_bind. apply bind_ext. intros []; [reflexivity|].
    rewrite om_bind. assert (opResult (me_o E) (literalFromSlot (shE E) (pad ++ ms_slots s)) (shOp op) lit = opResult (me_o E) (literalFromSlot E (ms_slots s)) op lit) as ->.
    { unfold opResult. cbn [shOp op_lhs op_rhs op_op]. rewrite !(operand_sh (me_o E) (literalFromSlot E (ms_slots s))) by apply slot_sh. reflexivity. }
    apply bind_ext. intros [res coll]. rewrite om_bind. apply bind_ext. intro d. destruct coll; reflexivity.
  Qed.
  Definition shP {B : Type} (x : mst * B) : mst * B := (shS (fst x), snd x).
  Definition shK (q : bytes * tok * nat * mst) : bytes * tok * nat * mst := (fst q, shS (snd q)).
  Definition shQ (x : mst * bool * bool) : mst * bool * bool := (shS (fst (fst x)), snd (fst x), snd x).
  Lemma runOps_sh : forall E ops lit s, runOps (shE E) (map shOp ops) lit (shS s) = om shP (runOps E ops lit s).
  Proof.
    intros E ops lit. induction ops as [|op r IH]; intro s; [reflexivity|]. cbn [map runOps]. rewrite matchOp_sh, bind_om, om_bind. apply bind_ext. intro sa.
    change (ms_data (shS sa)) with (ms_data sa). rewrite om_bind. apply bind_ext. intros []; [reflexivity|apply IH].
  Qed.
  Lemma storeSlot_sh : forall x a s, storeSlot (shX x) a (shS s) = om shS (storeSlot x a s).
  Proof.
    intros x a s. unfold storeSlot. cbn [shX x_store]. destruct (x_store x) as [|i]; [reflexivity|]. cbn [shN shS setSlots ms_slots ms_pos]. rewrite idx_pad, om_bind. apply bind_ext. intro y.
    cbn [om shS setSlots ms_slots ms_data ms_stall ms_pos ms_coll]. now rewrite upd_pad.
  Qed.
  Lemma skip_sh : forall E t s, skipValue (shE E) t (shS s) = om shP (skipValue E t s).
  Proof.
    intros E t s. unfold skipValue, leave. cbn [shE me_doc shS setSlots ms_pos]. destruct (isLiteralToken t); [reflexivity|].
    destruct t; try reflexivity; rewrite om_bind; apply bind_ext; now intros [p e].
  Qed.
  Lemma leave_sh : forall E s, leave (shE E) (shS s) = om shP (leave E s).
  Proof. intros E s. unfold leave. cbn [shE me_doc shS setSlots ms_pos]. rewrite om_bind; apply bind_ext; now intros [p e]. Qed.

  (** Positions, flags and predicate data do not see the slots. *)
  Lemma sh_pos : forall s, ms_pos (shS s) = ms_pos s. Proof. reflexivity. Qed.
  Lemma sh_slots : forall s i, idx (ms_slots (shS s)) (k + i) = idx (ms_slots s) i. Proof. intros. apply idx_pad. Qed.
  Lemma sh_data : forall s, ms_data (shS s) = ms_data s. Proof. reflexivity. Qed.
  Lemma sh_stall : forall s, ms_stall (shS s) = ms_stall s. Proof. reflexivity. Qed.
  Lemma sh_setPos : forall s p, setPos (shS s) p = shS (setPos s p). Proof. reflexivity. Qed.
  Lemma sh_setData : forall s p, setData (shS s) p = shS (setData s p). Proof. reflexivity. Qed.
  Lemma sh_setStall : forall s p, setStall (shS s) p = shS (setStall s p). Proof. reflexivity. Qed.
  Lemma sh_o : forall E, me_o (shE E) = me_o E. Proof. reflexivity. Qed.
  Lemma sh_tree : forall E, me_tree (shE E) = me_tree E. Proof. reflexivity. Qed.
  Lemma sh_doc : forall E, me_doc (shE E) = me_doc E. Proof. reflexivity. Qed.
  Lemma sh_heap : forall E n, idx (me_heap (shE E)) n = om shX (idx (me_heap E) n). Proof. intros. apply idx_map. Qed.
  Lemma sh_elems : forall x, x_elems (shX x) = x_elems x. Proof. reflexivity. Qed.
  Lemma sh_after : forall x, x_after (shX x) = option_map shA (x_after x). Proof. reflexivity. Qed.
  Lemma sh_loops : forall x, x_loops (shX x) = map shL (x_loops x). Proof. reflexivity. Qed.
  Lemma sh_ops : forall x, x_ops (shX x) = map shOp (x_ops x). Proof. reflexivity. Qed.
  Lemma sh_afOps : forall x, af_ops (shA x) = map shOp (af_ops x). Proof. reflexivity. Qed.
  Lemma sh_afLoops : forall x, af_loops (shA x) = map shL (af_loops x). Proof. reflexivity. Qed.
  Lemma sh_bucket : forall l, lp_bucket (shL l) = lp_bucket l. Proof. reflexivity. Qed.
  Lemma sh_mode : forall l, lp_mode (shL l) = lp_mode l. Proof. reflexivity. Qed.
  Lemma sh_node : forall l, lp_node (shL l) = lp_node l. Proof. reflexivity. Qed.
  Lemma sh_target : forall l, lp_target (shL l) = option_map shD (lp_target l). Proof. reflexivity. Qed.
  Hint Rewrite sh_slots sh_pos sh_data sh_stall sh_setPos sh_setData sh_setStall sh_o sh_tree sh_doc sh_heap sh_elems sh_after sh_loops sh_ops sh_afOps sh_afLoops sh_bucket sh_mode sh_node sh_target
    runOps_sh storeSlot_sh skip_sh leave_sh : sh.

  Lemma exec_sh : forall fuel E,
    (forall t a n s, matchExec fuel (shE E) t a n (shS s) = om shP (matchExec fuel E t a n s))
    /\ (forall t ls save first s, matchLoops fuel (shE E) t (map shL ls) save first (shS s) = om shP (matchLoops fuel E t ls save first s))
    /\ (forall t x first i s, matchOA fuel (shE E) t (shX x) first i (shS s) = om shQ (matchOA fuel E t x first i s))
    /\ (forall t l s, matchLoop fuel (shE E) t (shL l) (shS s) = om shP (matchLoop fuel E t l s))
    /\ (forall l first st s, matchIters fuel (shE E) (shL l) first st (shS s) = om shQ (matchIters fuel E l first st s))
    /\ (forall af s, matchAfter fuel (shE E) (shA af) (shS s) = om shP (matchAfter fuel E af s))
    /\ (forall ls s, afterLoops fuel (shE E) (map shL ls) (shS s) = om shP (afterLoops fuel E ls s)).
  Proof.
    induction fuel as [|f IH]; intro E; [repeat split; reflexivity|]. destruct (IH E) as (H1 & H2 & H3 & H4 & H5 & H6 & H7).
    Ltac same H1 H2 H3 H4 H5 H6 H7 :=
      repeat first
        [ reflexivity
        | progress autorewrite with sh
        | rewrite H1 | rewrite H2 | rewrite H3 | rewrite H4 | rewrite H5 | rewrite H6 | rewrite H7
        | match goal with |- obind (obind _ _) _ = om _ _ => rewrite om_bind end
        | match goal with |- obind (match _ with _ => _ end) _ = om _ _ => rewrite om_bind end
        | match goal with |- obind (obind _ _) _ = _ => first [apply (bind_sim _ _ _ shP) | apply (bind_sim _ _ _ (option_map shK))] end
        | match goal with |- obind (match _ with _ => _ end) _ = _ => first [apply (bind_sim _ _ _ shP) | apply (bind_sim _ _ _ (option_map shK))] end
        | rewrite bind_om
        | rewrite om_bind
        | apply bind_ext
        | match goal with |- forall _, _ => let a := fresh "a" in intro a; match type of a with prod (prod ?A ?B) ?C => destruct a as [[? ?] ?] | option (prod (prod (prod _ _) _) _) => destruct a as [[[[? ?] ?] ?]|] | prod ?A ?B => destruct a as [? ?] | _ => idtac end end
        | match goal with |- context [shL ?l :: map shL ?r] => change (shL l :: map shL r) with (map shL (l :: r)) end; rewrite H2
        | progress cbn [shP shQ shK fst snd option_map map om shD shN obind]
        | match goal with |- context [match map _ ?x with _ => _ end] => destruct x end
        | match goal with |- context [match option_map _ ?x with _ => _ end] => destruct x end
        | match goal with |- context [match shD ?x with _ => _ end] => destruct x end
        | match goal with |- context [match shN ?x with _ => _ end] => destruct x end
        | rewrite idx_pad
        | match goal with |- context [match ?x with _ => _ end] => destruct x end ].
    repeat split; intros; cbn [matchExec matchLoops matchOA matchLoop matchIters matchAfter afterLoops]; cbv zeta.
    - same H1 H2 H3 H4 H5 H6 H7.
    - same H1 H2 H3 H4 H5 H6 H7.
    - same H1 H2 H3 H4 H5 H6 H7.
    - same H1 H2 H3 H4 H5 H6 H7.
    - same H1 H2 H3 H4 H5 H6 H7.
    - same H1 H2 H3 H4 H5 H6 H7.
    - same H1 H2 H3 H4 H5 H6 H7.
  Qed.
  Lemma match_sh : forall fuel o D doc s h, d_heap D = Some h -> match_ fuel o (shDef D) doc (shS s) = om shP (match_ fuel o D doc s).
  Proof.
    intros fuel o D doc s h Hh. unfold match_. cbv zeta. destruct doc as [|c doc]; [reflexivity|]. destruct (step (c :: doc) 0) as [t a b|]; [|reflexivity].
    unfold shDef. rewrite Hh. cbn [d_heap d_tree]. change (MEnv o (shH h) (d_tree D) (c :: doc)) with (shE (MEnv o h (d_tree D) (c :: doc))).
    autorewrite with sh. rewrite (proj1 (exec_sh fuel _)), bind_om, om_bind. apply bind_ext. intros [sa []]; [reflexivity|]. cbn [shP fst snd]. autorewrite with sh. rewrite om_bind. apply bind_ext. intro d.
    rewrite om_bind. apply bind_ext. reflexivity.
  Qed.
End Shift.

(** A whole use of a matcher. *)
Definition padded (k : nat) (s s' : mst) : Prop := exists pad, length pad = k /\ s' = shS pad s.
Lemma shDef_buckets : forall k D, d_buckets (shDef k D) = d_buckets D.
Proof. intros k D. unfold shDef. destruct (d_heap D); reflexivity. Qed.
Lemma use_sh : forall k fuel o D cs s s', (exists h, d_heap D = Some h) -> padded k s s' -> useMatcher fuel o (shDef k D) cs s' = useMatcher fuel o D cs s.
Proof.
  intros k fuel o D cs. induction cs as [|c cs IH]; intros s s' HD (pad & Hp & ->); [reflexivity|]. cbn [useMatcher]. destruct c as [doc| |i]; cbn [doCall].
  - destruct HD as [h Hh]. rewrite (match_sh k pad Hp fuel o D doc s h Hh), bind_om. destruct (match_ fuel o D doc s) as [[sa r]| | |]; cbn [obind shP fst snd]; try reflexivity.
    rewrite (IH sa); [reflexivity|eauto|]. exists pad. auto.
  - cbn [obind]. rewrite (IH (resetMatcher s)); [reflexivity|auto|]. exists (map (fun _ => (0, 0)) pad). split; [now rewrite map_length|].
    unfold resetMatcher, shS, setSlots. cbn [ms_data ms_slots ms_pos ms_coll]. destruct (resetState (ms_data s)) as [d st]. cbn [ms_data ms_slots ms_pos ms_coll ms_stall]. now rewrite map_app.
  - assert (expressionMatched (shDef k D) (shS pad s) i = expressionMatched D s i) as -> by (unfold expressionMatched; now rewrite shDef_buckets).
    destruct (expressionMatched D s i) as [b| | |]; cbn [obind]; try reflexivity. rewrite (IH s); [reflexivity|auto|]. exists pad. auto.
Qed.
Lemma from_same : forall k o es fuel cs, obind (transformFrom k o es) (fun D => useMatcher fuel o D cs (newMatcher D)) = obind (transform o es) (fun D => useMatcher fuel o D cs (newMatcher D)).
Proof.
  intros k o es fuel cs. rewrite transform_sh, bind_om. apply bind_ext. intro D. destruct (d_heap D) as [h|] eqn:Eh; [|unfold shDef; now rewrite Eh].
  apply use_sh; [eauto|]. exists (repeat (0, 0) k). split; [apply repeat_length|]. unfold newMatcher, shS, setSlots, shDef. rewrite Eh. cbn [d_slots d_tree ms_slots ms_data ms_stall ms_pos ms_coll].
  now rewrite repeat_app.
Qed.
