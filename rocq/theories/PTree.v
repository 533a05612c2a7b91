(** The byte-level matcher and the tree interpreter agree on well-formed
    documents. *)
From Coq Require Import String.
From Verif Require Import Base MTokenizer SJson PTokenizer MLit MFastVal MMath SEvents MBinTree MSession MExpr
  MTransform MMatcher MTree.
From Coq Require Import List NArith ZArith Arith Lia Bool.
Import ListNotations.
Open Scope nat_scope.

(** ** Relating outcomes *)

Definition osim {A B} (R : A -> B -> Prop) (r : outcome A) (rt : outcome B) : Prop :=
  match rt with
  | Ok b => exists a, r = Ok a /\ R a b
  | Err => True
  | Panic => r = Panic
  | OutOfFuel => r = OutOfFuel
  end.

Lemma osim_bind : forall A B C D (R : A -> B -> Prop) (Q : C -> D -> Prop) r rt k kt,
  osim R r rt -> (forall a b, R a b -> osim Q (k a) (kt b)) -> osim Q (obind r k) (obind rt kt).
Proof.
  intros A B C D R Q r rt k kt H Hk. destruct rt; cbn in *; try (now rewrite H); auto.
  destruct H as (a' & -> & HR). cbn. auto.
Qed.

Lemma osim_eq : forall A (r rt : outcome A), r = rt -> osim eq r rt.
Proof. intros A r [a| | |] ->; cbn; eauto. Qed.

Lemma osim_ok : forall A B (R : A -> B -> Prop) a b, R a b -> osim R (Ok a) (Ok b).
Proof. intros. exists a. auto. Qed.

Lemma osim_mono : forall A B (R Q : A -> B -> Prop) r rt, osim R r rt -> (forall a b, R a b -> Q a b) -> osim Q r rt.
Proof. intros A B R Q r [b| | |] H HQ; cbn in *; auto. destruct H as (a & -> & X). eauto. Qed.

Lemma F2_length : forall A B (R : A -> B -> Prop) l m, Forall2 R l m -> length l = length m.
Proof. induction 1; cbn; auto. Qed.

(** ** Skipping *)

Fixpoint nest (d : nat) (l : list wtok) : option nat :=
  match l with
  | [] => Some d
  | (_, (t, _)) :: r =>
      match t with
      | TObjectStart | TArrayStart => nest (S d) r
      | TObjectEnd | TArrayEnd => match d with O => None | S d' => nest d' r end
      | TEnd => None
      | _ => nest d r
      end
  end.

Lemma nest_app : forall a b d, nest d (a ++ b) = match nest d a with Some d' => nest d' b | None => None end.
Proof.
  induction a as [|[w [t x]] a IH]; intros b d; cbn; auto.
  destruct t; auto; destruct d; auto.
Qed.

Lemma nest_lit : forall t w x d, lit_kind t -> nest d [(w, (t, x))] = Some d.
Proof. intros t w x d H. unfold lit_kind in H. cbn in H. intuition subst; reflexivity. Qed.

Lemma nest_comma : forall first w d, nest d (comma_of first w) = Some d.
Proof. intros [] w d; reflexivity. Qed.

Lemma nest_key : forall t w x r d, key_kind t -> nest d ((w, (t, x)) :: r) = nest d r.
Proof. intros t w x r d H. unfold key_kind in H. cbn in H. intuition subst; reflexivity. Qed.

Lemma nest_wtoks : forall v, wf_cst v -> forall w d, nest d (wtoks w v) = Some d.
Proof.
  induction v as [t lx | es wcl IH | ms wcl IH] using cst_ind'; intros Hwf w d.
  - destruct Hwf as [Hk _]. now apply nest_lit.
  - apply wf_arr in Hwf as [_ Hes]. rewrite wtoks_arr. cbn [nest]. rewrite nest_app.
    assert (forall first d, nest d (elts_toks first es) = Some d) as X.
    { clear w d. induction es as [|e r IHr]; intros first d; cbn [elts_toks]; auto.
      inversion IH; subst. inversion Hes as [|? ? (_ & _ & He) Hr]; subst.
      rewrite nest_app, nest_comma, nest_app, H1 by auto. now apply IHr. }
    now rewrite X.
  - apply wf_obj in Hwf as [_ Hms]. rewrite wtoks_obj. cbn [nest]. rewrite nest_app.
    assert (forall first d, nest d (mems_toks first ms) = Some d) as X.
    { clear w d. induction ms as [|m r IHr]; intros first d; cbn [mems_toks]; auto.
      inversion IH; subst. inversion Hms as [|? ? (_ & _ & _ & _ & Hk & _ & He) Hr]; subst.
      rewrite nest_app, nest_comma, nest_key by auto. cbn [nest]. rewrite nest_app, H1 by auto. now apply IHr. }
    now rewrite X.
Qed.

Lemma nest_elts : forall es first d, Forall wf_elt es -> nest d (elts_toks first es) = Some d.
Proof.
  induction es as [|e r IHr]; intros first d H; cbn [elts_toks]; auto.
  inversion H as [|? ? (_ & _ & He) Hr]; subst.
  rewrite nest_app, nest_comma, nest_app, nest_wtoks by auto. now apply IHr.
Qed.

Lemma nest_mems : forall ms first d, Forall wf_mem ms -> nest d (mems_toks first ms) = Some d.
Proof.
  induction ms as [|m r IHr]; intros first d H; cbn [mems_toks]; auto.
  inversion H as [|? ? (_ & _ & _ & _ & Hk & _ & He) Hr]; subst.
  rewrite nest_app, nest_comma, nest_key by auto. cbn [nest]. rewrite nest_app, nest_wtoks by auto. now apply IHr.
Qed.

Lemma leave_seq : forall l doc tail pos fuel d d',
  wseq l tail -> skipn pos doc = wrender l ++ tail -> nest d l = Some d' ->
  leaveValue (length l + fuel) doc d pos = leaveValue fuel doc d' (pos + length (wrender l)).
Proof.
  induction l as [|[w [t x]] r IH]; intros doc tail pos fuel d d' Hs Hp Hn; cbn [length wrender].
  - cbn in Hn. inversion Hn; subst. cbn. now rewrite Nat.add_0_r.
  - cbn [wseq] in Hs. destruct Hs as (Hw & Hl & Hst & Hr). cbn [wrender] in Hp. rewrite <- !app_assoc in Hp.
    cbn [Nat.add leaveValue]. rewrite (step_complete _ _ _ _ _ _ Hp Hw Hl Hst).
    assert (skipn (pos + length w + length x) doc = wrender r ++ tail) as Hp'.
    { apply skipn_skipn_app. now apply skipn_skipn_app. }
    rewrite !app_length, !Nat.add_assoc.
    cbn [nest] in Hn. destruct t; try discriminate; try (eapply IH; eauto; fail);
      destruct d; try discriminate; eapply IH; eauto.
Qed.

Lemma wseq_len : forall l tail, wseq l tail -> length l <= length (wrender l).
Proof.
  induction l as [|[w [t x]] r IH]; intros tail H; cbn [length wrender]; auto.
  cbn [wseq] in H. destruct H as (_ & Hl & _ & Hr). apply IH in Hr. rewrite !app_length.
  apply lex_nonempty in Hl. destruct x; [congruence|]. cbn [length]. lia.
Qed.

Lemma leave_close : forall l wcl t x doc tail pos,
  wseq (l ++ [(wcl, (t, x))]) tail -> skipn pos doc = wrender (l ++ [(wcl, (t, x))]) ++ tail ->
  nest 0 l = Some 0 -> (t = TObjectEnd \/ t = TArrayEnd) ->
  leaveValue (S (length doc)) doc 0 pos = Ok (pos + length (wrender (l ++ [(wcl, (t, x))])), false).
Proof.
  intros l wcl t x doc tail pos Hs Hp Hn Ht.
  pose proof (wseq_len _ _ Hs) as HL. rewrite app_length in HL. cbn [length] in HL.
  assert (length (wrender (l ++ [(wcl, (t, x))])) <= length doc) as HD.
  { apply (f_equal (@length N)) in Hp. rewrite skipn_length, app_length in Hp. lia. }
  assert (exists f, S (length doc) = length l + S f) as (f & Ef).
  { exists (length doc - length l). lia. }
  rewrite Ef. rewrite wrender_app in *. cbn [wrender] in *. rewrite app_nil_r in *.
  assert (wseq l (wrender [(wcl, (t, x))] ++ tail) /\ wseq [(wcl, (t, x))] tail) as [Hl Hc].
  { clear - Hs. revert Hs. induction l as [|[w [t' x']] r IH]; cbn [app wseq].
    - intro H. split; auto.
    - intros (H1 & H2 & H3 & H4). apply IH in H4 as [H5 H6]. split; auto. repeat split; auto.
      rewrite wrender_app in H3. now rewrite <- app_assoc in H3. }
  cbn [wrender] in Hl. rewrite app_nil_r in Hl. rewrite <- app_assoc in Hp.
  etransitivity; [exact (leave_seq l doc ((wcl ++ x) ++ tail) pos (S f) 0 0 Hl Hp Hn)|].
  cbn [leaveValue]. destruct Hc as (Hw & Hlx & Hst & _).
  apply skipn_skipn_app in Hp. rewrite <- app_assoc in Hp.
  rewrite (step_complete _ _ _ _ _ _ Hp Hw Hlx Hst).
  rewrite !app_length, !Nat.add_assoc. destruct Ht as [-> | ->]; reflexivity.
Qed.

(** ** Operand evaluation only depends on what slots read *)

Section DrefInd.
  Variable P : dref -> Prop.
  Hypothesis Ha : P DActive.
  Hypothesis Hs : forall s, P (DSlot s).
  Hypothesis Hf : forall n ps, Forall P ps -> P (DFunc n ps).
  Hypothesis Hv : forall v, P (DVal v).
  Fixpoint dref_ind' (d : dref) : P d :=
    match d with
    | DActive => Ha
    | DSlot s => Hs s
    | DFunc n ps => Hf n ps ((fix go (l : list dref) : Forall P l :=
                                match l with [] => Forall_nil _ | x :: r => Forall_cons x (dref_ind' x) (go r) end) ps)
    | DVal v => Hv v
    end.
End DrefInd.

Lemma resolveParam_ext : forall o f g lit d, (forall k, f k = g k) ->
  resolveParam o f d lit = resolveParam o g d lit.
Proof.
  intros o f g lit d Hfg. induction d as [|s|n ps IH|v] using dref_ind'; cbn [resolveParam]; auto.
  destruct (funLookup n funTable) as [[fn|fn]|]; auto; destruct ps as [|p1 [|p2 r]]; auto;
    inversion IH as [|? ? H1 IH']; subst.
  - now rewrite H1.
  - now rewrite H1.
  - now rewrite H1.
  - inversion IH' as [|? ? H2 _]; subst. rewrite H1, H2. reflexivity.
Qed.

Lemma opResult_ext : forall o f g op lit, (forall k, f k = g k) -> opResult o f op lit = opResult o g op lit.
Proof.
  intros o f g op lit H. unfold opResult, operand.
  destruct (op_lhs op) as [d|]; [rewrite (resolveParam_ext o f g lit d H)|];
    (destruct (op_rhs op) as [d'|]; [rewrite (resolveParam_ext o f g lit d' H)|]); reflexivity.
Qed.

Lemma ftok_lit_kind : forall t, lit_kind t -> isLiteralToken t = true.
Proof. intros t H. unfold lit_kind in H. cbn in H. intuition subst; reflexivity. Qed.

Definition ftok (v : cst) : tok := match v with CLit t _ => t | CArr _ _ => TArrayStart | CObj _ _ => TObjectStart end.
Definition flen (v : cst) : nat := match v with CLit _ x => length x | _ => 1 end.

Section Sim.
  Variable o : oracles.
  Variable H : list execnode.
  Variable T : list node.
  Variable w1 : bytes.
  Variable root : cst.
  Variable doc : bytes.
  Definition E := MEnv o H T doc.

  Definition at_val (a : nat) (v : cst) : Prop :=
    wf_cst v /\ exists tail, num_stop tail /\ skipn a doc = render v ++ tail.

  Definition srel (p : nat * nat) (ov : option cst) : Prop :=
    match ov with
    | Some v => at_val (fst p) v /\ snd p = length (render v)
    | None => p = (0, 0)
    end.

  Definition rel (s : mst) (t : tst) : Prop :=
    Forall2 srel (ms_slots s) (ts_slots t) /\ ms_data s = ts_data t /\ ms_stall s = ts_stall t
    /\ ms_coll s = ts_coll t.

  Lemma step_val : forall pos w v tail, wf_cst v -> ws w -> num_stop tail ->
    skipn pos doc = w ++ render v ++ tail ->
    step doc pos = SOk (ftok v) (pos + length w) (pos + length w + flen v).
  Proof.
    intros pos w v tail Hv Hw Ht Hp. destruct v as [t lx|es wcl|ms wcl].
    - destruct Hv as [Hk Hl]. rewrite render_lit in Hp. cbn [ftok flen].
      eapply step_complete; eauto.
    - rewrite render_arr in Hp. cbn [ftok flen]. eapply (step_complete _ _ w TArrayStart [91%N]); [exact Hp|auto| |].
      + constructor.
      + unfold num_kind. cbn. intuition congruence.
    - rewrite render_obj in Hp. cbn [ftok flen]. eapply (step_complete _ _ w TObjectStart [123%N]); [exact Hp|auto| |].
      + constructor.
      + unfold num_kind. cbn. intuition congruence.
  Qed.

  Lemma step_at : forall a v, at_val a v -> step doc a = SOk (ftok v) a (a + flen v).
  Proof.
    intros a v (Hv & tail & Ht & Hp).
    rewrite (step_val a [] v tail Hv (ws_nil) Ht Hp). cbn. now rewrite Nat.add_0_r.
  Qed.

  Lemma at_slice : forall a v, at_val a v -> slice doc a (a + length (render v)) = render v.
  Proof. intros a v (_ & tail & _ & Hp). eapply slice_from_skipn; eauto. Qed.

  Lemma render_pos : forall v, wf_cst v -> 0 < length (render v).
  Proof.
    intros [t lx|es wcl|ms wcl] Hv.
    - destruct Hv as [_ Hl]. rewrite render_lit. apply lex_nonempty in Hl. destruct lx; [congruence|cbn; lia].
    - rewrite render_arr. cbn. lia.
    - rewrite render_obj. cbn. lia.
  Qed.

  Lemma at_bound : forall a v, at_val a v -> a + length (render v) <= length doc.
  Proof.
    intros a v (Hv & tail & _ & Hp). pose proof (render_pos v Hv).
    apply (f_equal (@length N)) in Hp. rewrite skipn_length, app_length in Hp. lia.
  Qed.

  Lemma at_goSlice : forall a v, at_val a v -> goSlice doc a (a + length (render v)) = Ok (render v).
  Proof.
    intros a v Ha. unfold goSlice. pose proof (at_bound _ _ Ha).
    destruct (Nat.leb_spec a (a + length (render v))); [|lia].
    destruct (Nat.leb_spec (a + length (render v)) (length doc)); [|lia].
    cbn [andb]. now rewrite at_slice.
  Qed.

  (** The text begins with the first token of the document; all of the document is there, unless it is an object. *)
  Hypothesis root_step : step doc 0 = SOk (ftok root) (length w1) (length w1 + flen root).
  Hypothesis root_at : match root with CObj _ _ => True | _ => at_val (length w1) root end.

  Lemma lit_slice : forall a t x, at_val a (CLit t x) -> slice doc a (a + length x) = x.
  Proof. intros a t x Ha. apply at_slice in Ha. now rewrite render_lit in Ha. Qed.

  Lemma slot_sim : forall sl tl k, Forall2 srel sl tl -> literalFromSlot E sl k = slotVal o root tl k.
  Proof.
    intros sl tl [|i] HF; cbn [literalFromSlot slotVal]; auto.
    unfold idx. revert i. induction HF as [|p ov sl tl Hp HF IH]; intros [|i]; cbn [nth_error]; cbn [obind]; auto.
    destruct p as [start size]. cbn [E me_doc]. destruct ov as [v|]; cbn [srel fst snd] in Hp.
    - destruct Hp as [Ha ->]. rewrite (step_at _ _ Ha). pose proof (render_pos v (proj1 Ha)).
      destruct v as [t lx|es wcl|ms wcl]; cbn [ftok flen isLiteralToken valOf me_o].
      + rewrite (ftok_lit_kind t) by apply Ha. now rewrite (lit_slice _ _ _ Ha).
      + destruct (Nat.ltb_spec 0 (length (render (CArr es wcl)))); [|lia].
        now rewrite (at_goSlice _ _ Ha).
      + destruct (Nat.ltb_spec 0 (length (render (CObj ms wcl)))); [|lia].
        now rewrite (at_goSlice _ _ Ha).
    - inversion Hp; subst. rewrite root_step. clear Hp HF IH. revert root_at. 
      destruct root as [t lx|es wcl|ms wcl] eqn:Er; intro Ha; cbn [ftok flen isLiteralToken valOf me_o].
      + rewrite (ftok_lit_kind t) by apply Ha. now rewrite (lit_slice _ _ _ Ha).
      + reflexivity.
      + reflexivity.
  Qed.

  (** Same state, tokenizer at [p]. *)
  Definition relp (p : nat) (s : mst) (t : tst) : Prop := rel s t /\ ms_pos s = p.

  Lemma matchOp_sim : forall op lit s t p, relp p s t ->
    osim (relp p) (matchOp E op lit s) (tMatchOp o T root op lit t).
  Proof.
    intros op lit s t p ((HF & Hd & Hst & Hc) & Hp). unfold matchOp, tMatchOp. rewrite Hd.
    eapply osim_bind; [apply osim_eq; reflexivity|]. intros done ? <-. destruct done.
    - apply osim_ok. repeat split; auto.
    - rewrite (opResult_ext (me_o E) _ (slotVal o root (ts_slots t))) by (intro; now apply slot_sim).
      eapply osim_bind; [apply osim_eq; reflexivity|]. intros [res coll] ? <-.
      rewrite Hst. eapply osim_bind; [apply osim_eq; reflexivity|]. intros d ? <-.
      apply osim_ok. destruct coll; repeat split; auto.
  Qed.

  Lemma runOps_sim : forall ops lit s t p, relp p s t ->
    osim (fun r rt => relp p (fst r) (fst rt) /\ snd r = snd rt) (runOps E ops lit s) (tRunOps o T root ops lit t).
  Proof.
    induction ops as [|op r IH]; intros lit s t p HR; cbn [runOps tRunOps].
    - apply osim_ok. auto.
    - eapply osim_bind; [exact (matchOp_sim op lit s t p HR)|]. intros s' t' HR'.
      replace (ms_data s') with (ts_data t') by (symmetry; apply HR').
      eapply osim_bind; [apply osim_eq; reflexivity|]. intros done ? <-. destruct done; [apply osim_ok; auto|now apply IH].
  Qed.

  Lemma store_sim : forall x v a s t, relp (a + length (render v)) s t -> at_val a v ->
    osim (relp (a + length (render v))) (storeSlot x a s) (tStore x v t).
  Proof.
    intros x v a s t (HR & Hp) Ha. unfold storeSlot, tStore. destruct (x_store x) as [|i].
    - apply osim_ok. split; auto.
    - destruct HR as (HF & Hd & Hst & Hc).
      assert (length (ms_slots s) = length (ts_slots t)) as HLn by (eapply F2_length; eauto).
      unfold idx. destruct (nth_error (ts_slots t) i) as [y|] eqn:Et.
      + assert (i < length (ms_slots s)) as Hi by (rewrite HLn; apply nth_error_Some; congruence).
        destruct (nth_error (ms_slots s) i) as [z|] eqn:Es; [|apply nth_error_None in Es; lia].
        cbn [obind]. apply osim_ok. split; auto. split; [|cbn; auto]. cbn [ms_slots ts_slots setSlots tSetSlots].
        rewrite Hp. replace (a + length (render v) - a) with (length (render v)) by lia.
        clear - HF Ha Hi. revert i Hi. induction HF; intros [|i] Hi; cbn [upd]; constructor; auto.
        * split; auto.
        * apply IHHF. cbn in Hi. lia.
      + assert (nth_error (ms_slots s) i = None) as ->
          by (apply nth_error_None in Et; apply nth_error_None; lia).
        reflexivity.
  Qed.

  (** The rest of an array / object after its opening bracket or an element. *)
  Definition arr_at (p : nat) (first : bool) (es : list (elt cst)) (wcl tail : bytes) : Prop :=
    skipn p doc = render_elts first es ++ wcl ++ 93%N :: tail /\ Forall wf_elt es /\ ws wcl.
  Definition arr_len (first : bool) (es : list (elt cst)) (wcl : bytes) : nat :=
    length (render_elts first es ++ wcl ++ [93%N]).
  Definition obj_at (p : nat) (first : bool) (ms : list (mem cst)) (wcl tail : bytes) : Prop :=
    skipn p doc = render_mems first ms ++ wcl ++ 125%N :: tail /\ Forall wf_mem ms /\ ws wcl.
  Definition obj_len (first : bool) (ms : list (mem cst)) (wcl : bytes) : nat :=
    length (render_mems first ms ++ wcl ++ [125%N]).

  Lemma num_stop_sep : forall c r, In c [44; 93; 125; 58]%N -> num_stop (c :: r).
  Proof.
    intros c r Hc. cbn in Hc. unfold num_stop, digit. cbn [In]. intuition subst; lia.
  Qed.

  Lemma num_stop_elts : forall es wcl tail, Forall wf_elt es -> ws wcl ->
    num_stop (render_elts false es ++ wcl ++ 93%N :: tail).
  Proof.
    intros [|e r] wcl tail Hes Hw.
    - cbn [render_elts elts_toks wrender app]. apply num_stop_ws; auto. apply num_stop_sep. cbn; auto.
    - rewrite render_elts_cons. cbn [comma_text]. inversion Hes as [|? ? (Hwc & _) _]; subst.
      rewrite <- !app_assoc. apply num_stop_ws; auto. apply num_stop_sep. cbn; auto.
  Qed.

  Lemma num_stop_mems : forall ms wcl tail, Forall wf_mem ms -> ws wcl ->
    num_stop (render_mems false ms ++ wcl ++ 125%N :: tail).
  Proof.
    intros [|e r] wcl tail Hes Hw.
    - cbn [render_mems mems_toks wrender app]. apply num_stop_ws; auto. apply num_stop_sep. cbn; auto.
    - rewrite render_mems_cons. cbn [comma_text]. inversion Hes as [|? ? (Hwc & _) _]; subst.
      rewrite <- !app_assoc. apply num_stop_ws; auto. apply num_stop_sep. cbn; auto.
  Qed.

  Lemma at_arr : forall a es wcl, at_val a (CArr es wcl) ->
    exists tail, arr_at (a + 1) true es wcl tail /\ a + length (render (CArr es wcl)) = a + 1 + arr_len true es wcl.
  Proof.
    intros a es wcl (Hv & tail & Ht & Hp). exists tail. apply wf_arr in Hv as [Hw Hes].
    rewrite render_arr in *. split.
    - split; auto. replace (a + 1) with (a + length [91%N]) by (cbn; lia). apply skipn_skipn_app.
      rewrite Hp. cbn [app]. f_equal. rewrite <- !app_assoc. reflexivity.
    - unfold arr_len. cbn [length]. lia.
  Qed.

  Lemma at_obj : forall a ms wcl, at_val a (CObj ms wcl) ->
    exists tail, obj_at (a + 1) true ms wcl tail /\ a + length (render (CObj ms wcl)) = a + 1 + obj_len true ms wcl.
  Proof.
    intros a ms wcl (Hv & tail & Ht & Hp). exists tail. apply wf_obj in Hv as [Hw Hes].
    rewrite render_obj in *. split.
    - split; auto. replace (a + 1) with (a + length [123%N]) by (cbn; lia). apply skipn_skipn_app.
      rewrite Hp. cbn [app]. f_equal. rewrite <- !app_assoc. reflexivity.
    - unfold obj_len. cbn [length]. lia.
  Qed.

  Lemma wseq_arr : forall p first es wcl tail, arr_at p first es wcl tail ->
    wseq (elts_toks first es ++ [(wcl, (TArrayEnd, [93%N]))]) tail
    /\ skipn p doc = wrender (elts_toks first es ++ [(wcl, (TArrayEnd, [93%N]))]) ++ tail.
  Proof.
    intros p first es wcl tail (Hp & Hes & Hw). split.
    - clear Hp. revert first. induction Hes as [|e r He Hr IH]; intro first.
      + cbn. repeat split; auto; try constructor; unfold num_kind; cbn; intuition congruence.
      + destruct He as (Hwc & Hwl & Hv). cbn [elts_toks]. rewrite <- !app_assoc. apply wseq_app.
        * destruct first; cbn; auto. repeat split; auto; try constructor; unfold num_kind; cbn; intuition congruence.
        * apply wseq_app; [|apply IH]. apply wseq_wtoks; auto. rewrite wrender_app. cbn [wrender].
          rewrite app_nil_r, <- !app_assoc. now apply num_stop_elts.
    - rewrite wrender_app. cbn [wrender]. rewrite app_nil_r, <- !app_assoc. exact Hp.
  Qed.

  Lemma wseq_obj : forall p first ms wcl tail, obj_at p first ms wcl tail ->
    wseq (mems_toks first ms ++ [(wcl, (TObjectEnd, [125%N]))]) tail
    /\ skipn p doc = wrender (mems_toks first ms ++ [(wcl, (TObjectEnd, [125%N]))]) ++ tail.
  Proof.
    intros p first ms wcl tail (Hp & Hes & Hw). split.
    - clear Hp. revert first. induction Hes as [|e r He Hr IH]; intro first.
      + cbn. repeat split; auto; try constructor; unfold num_kind; cbn; intuition congruence.
      + destruct He as (Hwc & Hwk & Hwd & Hwv & Hk & Hx & Hv). cbn [mems_toks]. rewrite <- !app_assoc. apply wseq_app.
        * destruct first; cbn; auto. repeat split; auto; try constructor; unfold num_kind; cbn; intuition congruence.
        * cbn [app wseq]. repeat split; auto; try constructor.
          -- intro N. destruct (key_not_num _ Hk N).
          -- unfold num_kind. cbn. intuition congruence.
          -- rewrite <- app_assoc. apply wseq_app; [|apply IH]. apply wseq_wtoks; auto. rewrite wrender_app. cbn [wrender].
             rewrite app_nil_r, <- !app_assoc. now apply num_stop_mems.
    - rewrite wrender_app. cbn [wrender]. rewrite app_nil_r, <- !app_assoc. exact Hp.
  Qed.

  Lemma leave_arr : forall first es wcl tail s, arr_at (ms_pos s) first es wcl tail ->
    leave E s = Ok (setPos s (ms_pos s + arr_len first es wcl), false).
  Proof.
    intros first es wcl tail s Ha. destruct (wseq_arr _ _ _ _ _ Ha) as [Hs Hp]. destruct Ha as (_ & Hes & _).
    unfold leave. cbn [E me_doc].
    rewrite (leave_close (elts_toks first es) wcl TArrayEnd [93%N] doc tail (ms_pos s)); auto; [|now apply nest_elts].
    cbn [obind]. unfold arr_len. rewrite wrender_app. cbn [wrender]. now rewrite app_nil_r.
  Qed.

  Lemma leave_obj : forall first ms wcl tail s, obj_at (ms_pos s) first ms wcl tail ->
    leave E s = Ok (setPos s (ms_pos s + obj_len first ms wcl), false).
  Proof.
    intros first ms wcl tail s Ha. destruct (wseq_obj _ _ _ _ _ Ha) as [Hs Hp]. destruct Ha as (_ & Hes & _).
    unfold leave. cbn [E me_doc].
    rewrite (leave_close (mems_toks first ms) wcl TObjectEnd [125%N] doc tail (ms_pos s)); auto; [|now apply nest_mems].
    cbn [obind]. unfold obj_len. rewrite wrender_app. cbn [wrender]. now rewrite app_nil_r.
  Qed.

  Lemma setPos_same : forall s, setPos s (ms_pos s) = s.
  Proof. now intros []. Qed.

  (** Skipping a value lands exactly behind it. *)
  Lemma skip_val : forall a v s, at_val a v -> ms_pos s = a + flen v ->
    skipValue E (ftok v) s = Ok (setPos s (a + length (render v)), false).
  Proof.
    intros a v s Ha Hp. unfold skipValue. destruct v as [t lx|es wcl|ms wcl]; cbn [ftok flen isLiteralToken] in *.
    - rewrite (ftok_lit_kind t) by apply Ha. rewrite render_lit, <- Hp. now rewrite setPos_same.
    - destruct (at_arr _ _ _ Ha) as (tail & HA & ->). rewrite <- Hp in *. eapply leave_arr; eauto.
    - destruct (at_obj _ _ _ Ha) as (tail & HA & ->). rewrite <- Hp in *. eapply leave_obj; eauto.
  Qed.
  (** ** The simulation, one statement per function *)

  Definition P_exec (f : nat) : Prop := forall v n s t a,
    at_val a v -> rel s t -> ms_pos s = a + flen v ->
    osim (fun r rt => rel (fst r) (fst rt) /\ snd r = false
                      /\ (snd rt = false -> ms_pos (fst r) = a + length (render v)))
      (matchExec f E (ftok v) a n s) (tExec o H T root f v n t).

  Definition P_loops (f : nat) : Prop := forall ls es wcl tail save first s t,
    arr_at save true es wcl tail -> rel s t ->
    ms_pos s = (if first : bool then save else save + arr_len true es wcl) ->
    osim (fun r rt => rel (fst r) (fst rt) /\ snd r = (if snd rt : bool then Some false else None)
                      /\ (snd rt = false -> (first = true -> ls <> []) ->
                          ms_pos (fst r) = save + arr_len true es wcl))
      (matchLoops f E TArrayStart ls save first s) (tLoops o H T root f ls es t).

  Definition P_oarr (f : nat) : Prop := forall es x (first : bool) i s t wcl tail,
    arr_at (ms_pos s) first es wcl tail -> rel s t ->
    osim (fun r rt => rel (fst (fst r)) (fst (fst rt)) /\ snd (fst r) = false /\ snd r = snd (fst rt)
                      /\ (snd rt = false -> ms_pos (fst (fst r)) = ms_pos s + arr_len first es wcl))
      (matchOA f E TArrayStart x first i s)
      (tOA o H T root f (arrItems (if first then i else S i) es) x first t).

  Definition P_oobj (f : nat) : Prop := forall ms x (first : bool) i s t wcl tail,
    obj_at (ms_pos s) first ms wcl tail -> rel s t ->
    osim (fun r rt => rel (fst (fst r)) (fst (fst rt)) /\ snd (fst r) = false /\ snd r = snd (fst rt)
                      /\ (snd rt = false -> ms_pos (fst (fst r)) = ms_pos s + obj_len first ms wcl))
      (matchOA f E TObjectStart x first i s)
      (tOA o H T root f (map (fun m => (keyOf (m_kt m) (m_kx m), m_v m)) ms) x first t).

  Definition P_loop (f : nat) : Prop := forall l es wcl tail s t,
    arr_at (ms_pos s) true es wcl tail -> rel s t ->
    osim (fun r rt => rel (fst r) rt /\ snd r = false /\ ms_pos (fst r) = ms_pos s + arr_len true es wcl)
      (matchLoop f E TArrayStart l s) (tLoop o H T root f l es t).

  Definition P_iters (f : nat) : Prop := forall l es (first : bool) b s t wcl tail,
    arr_at (ms_pos s) first es wcl tail -> rel s t ->
    osim (fun r rt => rel (fst (fst r)) (fst rt) /\ snd (fst r) = false /\ snd r = snd rt
                      /\ ms_pos (fst (fst r)) = ms_pos s + arr_len first es wcl)
      (matchIters f E l first b s) (tIters o H T root f l es b t).

  Definition P_after (f : nat) : Prop := forall af s t, rel s t ->
    osim (fun r rt => rel (fst r) (fst rt) /\ snd r = false /\ (snd rt = false -> ms_pos (fst r) = ms_pos s))
      (matchAfter f E af s) (tAfter o H T root f af t).

  Definition P_aloops (f : nat) : Prop := forall ls s t, rel s t ->
    osim (fun r rt => rel (fst r) (fst rt) /\ snd r = (if snd rt : bool then Some false else None))
      (afterLoops f E ls s) (tAfterLoops o H T root f ls t).

  Lemma rel_data : forall s t, rel s t -> ms_data s = ts_data t.
  Proof. intros s t (_ & Hd & _). exact Hd. Qed.
  Lemma rel_pos : forall s t p, rel s t -> rel (setPos s p) t.
  Proof. intros [] t p Hr. exact Hr. Qed.
  Lemma rel_setData : forall s t d, rel s t -> rel (setData s d) (tSetData t d).
  Proof. intros s t d (H1 & H2 & H3 & H4). repeat split; auto. Qed.
  Lemma rel_setStall : forall s t k, rel s t -> rel (setStall s k) (tSetStall t k).
  Proof. intros s t d (H1 & H2 & H3 & H4). repeat split; auto. Qed.

  Ltac odone := eapply osim_bind; [apply osim_eq; reflexivity|]; intros ? ? <-.

  Lemma aloops_step : forall f, P_loop f -> P_aloops f -> P_aloops (S f).
  Proof.
    intros f Hloop IH [|l r] s t HR; cbn [afterLoops tAfterLoops].
    { apply osim_ok. auto. }
    destruct (lp_target l) as [[|[|i]|n ps|v]|]; try (cbn; reflexivity).
    assert (length (ms_slots s) = length (ts_slots t)) as HLn by (eapply F2_length; apply HR).
    unfold idx. destruct (nth_error (ts_slots t) i) as [ov|] eqn:Et.
    2:{ assert (nth_error (ms_slots s) i = None) as ->
          by (apply nth_error_None in Et; apply nth_error_None; lia). reflexivity. }
    assert (i < length (ms_slots s)) as Hi by (rewrite HLn; apply nth_error_Some; congruence).
    destruct (nth_error (ms_slots s) i) as [[start size]|] eqn:Es; [|apply nth_error_None in Es; lia].
    cbn [obind E me_doc].
    assert (srel (start, size) ov) as Hsr.
    { destruct HR as (HF & _). clear - HF Et Es. revert i Et Es. induction HF; intros [|i]; cbn; try discriminate.
      - congruence.
      - apply IHHF. }
    assert (exists a, let w := match ov with Some w => w | None => root end in
              match w with CObj _ _ => True | _ => at_val a w end /\ step doc start = SOk (ftok w) a (a + flen w)) as (a & Ha & Hs).
    { destruct ov as [w|]; cbn in Hsr.
      - exists start. split; [destruct w; auto; apply Hsr|]. apply step_at. apply Hsr.
      - inversion Hsr; subst. exists (length w1). split; [exact root_at|apply root_step]. }
    cbn zeta in Ha, Hs. rewrite Hs. set (w := match ov with Some w => w | None => root end) in *.
    eapply (osim_bind _ _ _ _ (fun r t' => rel (fst r) t' /\ snd r = false)).
    - destruct w as [tk lx|es wcl|ms wcl]; cbn [ftok flen] in *.
      + destruct f as [|f']; [reflexivity|]. cbn [matchLoop].
        assert (isArr tk = false) as ->.
        { destruct Ha as [[Hk _] _]. unfold lit_kind in Hk. cbn in Hk. intuition subst; reflexivity. }
        apply osim_ok. split; [now apply rel_pos|auto].
      + destruct (at_arr _ _ _ Ha) as (tail & HA & _).
        eapply osim_mono; [eapply (Hloop l es wcl tail); [exact HA|now apply rel_pos]|]. tauto.
      + destruct f as [|f']; [reflexivity|]. cbn [matchLoop isArr negb].
        apply osim_ok. split; [now apply rel_pos|auto].
    - intros [s' err] t' [HR' He]. cbn [fst snd] in *. subst err. rewrite (rel_data _ _ HR').
      odone. destruct a0; [apply osim_ok; auto|now apply IH].
  Qed.

  Lemma after_step : forall f, P_aloops f -> P_after (S f).
  Proof.
    intros f IH af s t HR; cbn [matchAfter tAfter].
    eapply osim_bind; [apply IH, HR|]. intros [s' early] [t' out] [HR' He]. cbn [fst snd] in *. subst early.
    destruct out.
    - apply osim_ok. cbn. split; auto. split; auto. discriminate.
    - eapply osim_mono with (R := fun r rt => rel (fst r) (fst rt) /\ snd r = false /\ (snd rt = false -> ms_pos (fst r) = ms_pos s)); [|tauto].
      pose proof (runOps_sim (af_ops af) None s' t' (ms_pos s') (conj HR' eq_refl)) as Ho.
      destruct (tRunOps o T root (af_ops af) None t') as [[t2 r2]| | |]; cbn in Ho |- *; try (now rewrite Ho); auto.
      destruct Ho as ([s2 r2'] & -> & [HR2 _] & E2). cbn [fst snd] in *. subst r2'. cbn [obind]. destruct r2.
      + exists (s2, false). cbn. split; auto. split; auto. split; auto. discriminate.
      + exists (setPos s2 (ms_pos s), false). cbn. split; auto.
  Qed.

  Lemma elt_at : forall p first e r wcl tail, arr_at p first (e :: r) wcl tail ->
    let p0 := p + length (comma_text first (e_wc e)) in
    let a := p0 + length (e_wl e) in
    (first = false -> step doc p = SOk TListDelim (p + length (e_wc e)) p0)
    /\ step doc p0 = SOk (ftok (e_v e)) a (a + flen (e_v e))
    /\ at_val a (e_v e)
    /\ arr_at (a + length (render (e_v e))) false r wcl tail
    /\ p + arr_len first (e :: r) wcl = a + length (render (e_v e)) + arr_len false r wcl.
  Proof.
    intros p first e r wcl tail (Hp & Hes & Hw). inversion Hes as [|? ? (Hwc & Hwl & Hv) Hr]; subst.
    rewrite render_elts_cons in Hp. rewrite <- !app_assoc in Hp. cbn zeta.
    assert (skipn (p + length (comma_text first (e_wc e))) doc
            = e_wl e ++ render (e_v e) ++ render_elts false r ++ wcl ++ 93%N :: tail) as Hp0
      by (now apply skipn_skipn_app).
    assert (num_stop (render_elts false r ++ wcl ++ 93%N :: tail)) as Hns by (now apply num_stop_elts).
    split; [|split; [|split; [|split]]].
    - intros ->. cbn [comma_text] in *. rewrite <- app_assoc in Hp. rewrite app_length. cbn [length].
      rewrite Nat.add_assoc. eapply (step_complete _ _ _ TListDelim [44%N]); [exact Hp|auto|constructor|].
      unfold num_kind. cbn. intuition congruence.
    - eapply step_val; eauto.
    - split; auto. eexists. split; [|eapply skipn_skipn_app; exact Hp0]. exact Hns.
    - split; auto. apply skipn_skipn_app. now apply skipn_skipn_app.
    - unfold arr_len. rewrite render_elts_cons. rewrite <- !app_assoc, !app_length. cbn [length]. lia.
  Qed.

  Lemma arr_end : forall p first wcl tail, arr_at p first [] wcl tail ->
    step doc p = SOk TArrayEnd (p + length wcl) (p + arr_len first [] wcl).
  Proof.
    intros p first wcl tail (Hp & _ & Hw). cbn [render_elts elts_toks wrender app] in Hp.
    unfold arr_len. cbn [render_elts elts_toks wrender app]. rewrite app_length, Nat.add_assoc.
    eapply (step_complete _ _ _ TArrayEnd [93%N]); [exact Hp|auto|constructor|].
    unfold num_kind. cbn. intuition congruence.
  Qed.

  Lemma lit_not_delim : forall v t, wf_cst v -> In t [TArrayEnd; TObjectEnd; TListDelim; TObjectKeyDelim; TEnd] ->
    tok_eqb (ftok v) t = false.
  Proof.
    intros [tk lx|es w|ms w] t Hv Ht; cbn in Ht.
    - destruct Hv as [Hk _]. unfold lit_kind in Hk. cbn in Hk. cbn [ftok]. intuition subst; reflexivity.
    - intuition subst; reflexivity.
    - intuition subst; reflexivity.
  Qed.

  Lemma iters_step : forall f, P_exec f -> P_iters f -> P_iters (S f).
  Proof.
    intros f Hexec IH l es first b s t wcl tail HA HR. cbn [matchIters tIters]. cbn [E me_doc me_tree].
    destruct es as [|e r].
    - rewrite (arr_end _ _ _ _ HA).
      assert (tok_eqb TArrayEnd TArrayEnd = true) as Et by reflexivity. rewrite Et.
      destruct first; apply osim_ok; cbn; repeat split; auto; apply HR.
    - destruct (elt_at _ _ _ _ _ _ HA) as (Hc & Hs & Hv & Hrest & Hend). cbn zeta in *.
      set (a := ms_pos s + length (comma_text first (e_wc e)) + length (e_wl e)) in *.
      assert (forall s0, rel s0 t -> ms_pos s0 = ms_pos s + length (comma_text first (e_wc e)) ->
        osim (fun r0 rt => rel (fst (fst r0)) (fst rt) /\ snd (fst r0) = false /\ snd r0 = snd rt
                      /\ ms_pos (fst (fst r0)) = ms_pos s + arr_len first (e :: r) wcl)
          (match step doc (ms_pos s0) with
           | SOk t1 a1 b1 =>
               if tok_eqb t1 TArrayEnd then Ok (setPos s0 b1, false, b)
               else
                do d <- resetNode T (ms_data (setPos s0 b1)) (lp_bucket l);
                do (s2, err) <- matchExec f E t1 a1 (lp_node l) (setData (setPos s0 b1) d);
                if err : bool then Ok (s2, true, b)
                else
                 do matched <- isTrue (ms_data s2) (lp_bucket l);
                 (let '(st', out) := loopStep (lp_mode l) b matched in
                  if out : bool then do (s3, _) <- leave E s2; Ok (s3, false, st')
                  else matchIters f E l false st' s2)
           | SErr => Ok (s0, true, b)
           end)
          (do d <- resetNode T (ts_data t) (lp_bucket l);
           do (s2, out) <- tExec o H T root f (e_v e) (lp_node l) (tSetData t d);
           if out : bool then Err
           else
            do matched <- isTrue (ts_data s2) (lp_bucket l);
            (let '(st', leave) := loopStep (lp_mode l) b matched in
             if leave : bool then Ok (s2, st') else tIters o H T root f l r st' s2))) as Hbody.
      { intros s0 HR0 Hp0. rewrite Hp0, Hs.
        rewrite (lit_not_delim (e_v e) TArrayEnd) by (try apply Hv; cbn; auto).
        replace (ms_data (setPos s0 (a + flen (e_v e)))) with (ts_data t) by (symmetry; apply HR0).
        odone.
        eapply osim_bind.
        { apply (Hexec (e_v e) (lp_node l) _ (tSetData t a0) a Hv); [|reflexivity].
          apply rel_setData, rel_pos, HR0. }
        intros [s2 err] [t2 out] (HR2 & Ee & Hp2). cbn [fst snd] in *. subst err.
        destruct out; [exact I|]. specialize (Hp2 eq_refl). rewrite (rel_data _ _ HR2). odone.
        destruct (loopStep (lp_mode l) b a1) as [st' lv]. destruct lv.
        - rewrite <- Hp2 in Hrest. rewrite (leave_arr _ _ _ _ _ Hrest). cbn [obind]. apply osim_ok. cbn [fst snd setPos ms_pos].
          split; [now apply rel_pos|]. repeat split; auto. lia.
        - rewrite <- Hp2 in Hrest. eapply osim_mono; [apply (IH l r false st' s2 t2 wcl tail Hrest HR2)|].
          intros ra rb (X1 & X2 & X3 & X4). repeat split; auto; try apply X1. lia. }
      destruct first.
      + apply Hbody; auto. all: cbn; lia.
      + rewrite (Hc eq_refl). apply Hbody; [now apply rel_pos|reflexivity].
  Qed.

  Lemma loop_step : forall f, P_iters f -> P_loop (S f).
  Proof.
    intros f IH l es wcl tail s t HA HR. cbn [matchLoop tLoop]. cbn [isArr negb].
    replace (ms_data s) with (ts_data t) by (symmetry; apply HR). odone. destruct a.
    - unfold skipValue. cbn [isLiteralToken]. rewrite (leave_arr _ _ _ _ _ HA). cbn [obind]. apply osim_ok. cbn.
      split; [now apply rel_pos|auto].
    - replace (ms_stall s) with (ts_stall t) by (symmetry; apply HR).
      eapply osim_bind.
      { apply (IH l es true (loopInit (lp_mode l)) (setStall s (lp_bucket l)) (tSetStall t (lp_bucket l)) wcl tail); auto.
        now apply rel_setStall. }
      intros [[s2 err] res] [t2 res'] (HR2 & Ee & Er & Hp2). cbn [fst snd] in *. subst err res'.
      cbn [E me_tree]. rewrite (rel_data _ _ HR2). odone. odone. apply osim_ok. cbn [fst snd].
      split; [|split; auto]. apply rel_setData, rel_setStall, rel_setData, HR2.
  Qed.

  Lemma loops_step : forall f, P_loop f -> P_loops f -> P_loops (S f).
  Proof.
    intros f Hl IH [|l r] es wcl tail save first s t HA HR Hp; cbn [matchLoops tLoops].
    - apply osim_ok. cbn. split; auto. split; auto. intros _ Hx. destruct first; auto. now destruct Hx.
    - destruct (lp_target l); [reflexivity|].
      eapply (osim_bind _ _ _ _ (fun ra rb => rel (fst ra) rb /\ snd ra = false /\ ms_pos (fst ra) = save + arr_len true es wcl)).
      { set (s0 := if first then s else setPos s save).
        assert (ms_pos s0 = save /\ rel s0 t) as [E0 R0].
        { unfold s0. destruct first; split; auto. }
        rewrite <- E0 in HA |- *. apply (Hl l es wcl tail s0 t HA R0). }
      intros [s2 err] t2 (HR2 & Ee & Hp2). cbn [fst snd] in *. subst err.
      rewrite (rel_data _ _ HR2). odone. destruct a.
      + apply osim_ok. cbn. repeat split; try apply HR2; auto; discriminate.
      + eapply osim_mono; [apply (IH r es wcl tail save false s2 t2 HA HR2 Hp2)|].
        intros ra rb (X1 & X2 & X3). repeat split; auto; try apply X1. intros Y _. apply X3; auto. discriminate.
  Qed.

  Lemma oarr_step : forall f, P_exec f -> P_oarr f -> P_oarr (S f).
  Proof.
    intros f Hexec IH es x first i s t wcl tail HA HR. cbn [matchOA tOA]. cbn [E me_doc me_tree isArr endTok].
    destruct es as [|e r].
    - cbn [arrItems]. rewrite (arr_end _ _ _ _ HA).
      assert (tok_eqb TArrayEnd TArrayEnd = true) as Et by reflexivity. rewrite Et.
      destruct first; apply osim_ok; cbn; repeat split; auto; apply HR.
    - destruct (elt_at _ _ _ _ _ _ HA) as (Hc & Hs & Hv & Hrest & Hend). cbn zeta in *.
      set (a := ms_pos s + length (comma_text first (e_wc e)) + length (e_wl e)) in *.
      cbn [arrItems obind].
      assert (forall j s0, rel s0 t -> ms_pos s0 = ms_pos s + length (comma_text first (e_wc e)) ->
        osim (fun r0 rt => rel (fst (fst r0)) (fst (fst rt)) /\ snd (fst r0) = false /\ snd r0 = snd (fst rt)
                      /\ (snd rt = false -> ms_pos (fst (fst r0)) = ms_pos s + arr_len first (e :: r) wcl))
          (match step doc (ms_pos s0) with
           | SOk t1 a1 b1 =>
               if tok_eqb t1 TArrayEnd then Ok (setPos s0 b1, false, true)
               else
                match lookup (indexKey j) (x_elems x) with
                  | Some c =>
                      do (s3, _) <- matchExec f E t1 a1 c (setPos s0 b1);
                      do done <- isResolved (ms_data s3) 0;
                      if done : bool then Ok (s3, false, true) else matchOA f E TArrayStart x false j s3
                  | None => do (s3, _) <- skipValue E t1 (setPos s0 b1); matchOA f E TArrayStart x false j s3
                  end
           | SErr => Ok (s0, true, true)
           end)
          (match lookup (indexKey j) (x_elems x) with
           | Some c =>
               do (sa, out) <- tExec o H T root f (e_v e) c t;
               do done <- isResolved (ts_data sa) 0;
               if done : bool then Ok (sa, true, true)
               else if out : bool then Err else tOA o H T root f (arrItems (S j) r) x false sa
           | None => tOA o H T root f (arrItems (S j) r) x false t
           end)) as Hbody.
      { intros j s0 HR0 Hp0. rewrite Hp0, Hs.
        rewrite (lit_not_delim (e_v e) TArrayEnd) by (try apply Hv; cbn; auto).
        destruct (lookup (indexKey j) (x_elems x)) as [c|].
        - eapply osim_bind.
          { apply (Hexec (e_v e) c (setPos s0 (a + flen (e_v e))) t a Hv); [|reflexivity]. now apply rel_pos. }
          intros [s2 err] [t2 out] (HR2 & _ & Hp2). cbn [fst snd] in *.
          rewrite (rel_data _ _ HR2). odone. destruct a0.
          + apply osim_ok. cbn. repeat split; try apply HR2. discriminate.
          + destruct out; [exact I|]. specialize (Hp2 eq_refl). rewrite <- Hp2 in Hrest.
            eapply osim_mono; [apply (IH r x false j s2 t2 wcl tail Hrest HR2)|].
            intros ra rb (X1 & X2 & X3 & X4). repeat split; auto; try apply X1. intro Y. rewrite X4 by auto. lia.
        - rewrite (skip_val a (e_v e) (setPos s0 (a + flen (e_v e))) Hv eq_refl). cbn [obind].
          assert (arr_at (ms_pos (setPos (setPos s0 (a + flen (e_v e))) (a + length (render (e_v e))))) false r wcl tail)
            as Hrest' by exact Hrest.
          eapply osim_mono; [eapply (IH r x false j _ t wcl tail Hrest')|].
          + now apply rel_pos, rel_pos.
          + intros ra rb (X1 & X2 & X3 & X4). repeat split; auto; try apply X1. intro Y. rewrite X4 by auto.
            cbn [setPos ms_pos]. lia. }
      destruct first.
      + apply Hbody; auto. all: cbn; lia.
      + rewrite (Hc eq_refl). apply Hbody; [now apply rel_pos|reflexivity].
  Qed.

  Lemma mem_at : forall p first m r wcl tail, obj_at p first (m :: r) wcl tail ->
    let p0 := p + length (comma_text first (m_wc m)) in
    let k := p0 + length (m_wk m) in
    let p1 := k + length (m_kx m) in
    let p2 := p1 + length (m_wd m) + 1 in
    let a := p2 + length (m_wv m) in
    (first = false -> step doc p = SOk TListDelim (p + length (m_wc m)) p0)
    /\ step doc p0 = SOk (m_kt m) k p1 /\ slice doc k p1 = m_kx m
    /\ step doc p1 = SOk TObjectKeyDelim (p1 + length (m_wd m)) p2
    /\ step doc p2 = SOk (ftok (m_v m)) a (a + flen (m_v m))
    /\ at_val a (m_v m)
    /\ obj_at (a + length (render (m_v m))) false r wcl tail
    /\ p + obj_len first (m :: r) wcl = a + length (render (m_v m)) + obj_len false r wcl.
  Proof.
    intros p first m r wcl tail (Hp & Hms & Hw).
    inversion Hms as [|? ? (Hwc & Hwk & Hwd & Hwv & Hk & Hx & Hv) Hr]; subst.
    rewrite render_mems_cons in Hp. rewrite <- !app_assoc in Hp. cbn zeta.
    pose proof (skipn_skipn_app _ _ _ _ _ Hp) as Hp0.
    pose proof (skipn_skipn_app _ _ _ _ _ Hp0) as Hpk.
    pose proof (skipn_skipn_app _ _ _ _ _ Hpk) as Hp1.
    pose proof (skipn_skipn_app _ _ _ _ _ Hp1) as Hpc.
    pose proof (skipn_skipn_app _ _ _ _ _ Hpc) as Hp2. cbn [length] in Hp2.
    assert (num_stop (render_mems false r ++ wcl ++ 125%N :: tail)) as Hns by (now apply num_stop_mems).
    repeat match goal with |- _ /\ _ => split end.
    - intros ->. cbn [comma_text] in *. rewrite <- app_assoc in Hp. rewrite app_length. cbn [length].
      rewrite Nat.add_assoc. eapply (step_complete _ _ _ TListDelim [44%N]); [exact Hp|auto|constructor|].
      unfold num_kind. cbn. intuition congruence.
    - eapply step_complete; [exact Hp0|auto|auto|]. intro N. destruct (key_not_num _ Hk N).
    - eapply slice_from_skipn. exact Hpk.
    - eapply (step_complete _ _ _ TObjectKeyDelim [58%N]); [exact Hp1|auto|constructor|].
      unfold num_kind. cbn. intuition congruence.
    - eapply step_val; [exact Hv|exact Hwv| |exact Hp2]. exact Hns.
    - split; [exact Hv|]. eexists. split; [|eapply skipn_skipn_app; exact Hp2]. exact Hns.
    - split; [|auto]. apply skipn_skipn_app. now apply skipn_skipn_app.
    - unfold obj_len. rewrite render_mems_cons. rewrite <- !app_assoc, !app_length. cbn [length]. lia.
  Qed.

  Lemma obj_end : forall p first wcl tail, obj_at p first [] wcl tail ->
    step doc p = SOk TObjectEnd (p + length wcl) (p + obj_len first [] wcl).
  Proof.
    intros p first wcl tail (Hp & _ & Hw). cbn [render_mems mems_toks wrender app] in Hp.
    unfold obj_len. cbn [render_mems mems_toks wrender app]. rewrite app_length, Nat.add_assoc.
    eapply (step_complete _ _ _ TObjectEnd [125%N]); [exact Hp|auto|constructor|].
    unfold num_kind. cbn. intuition congruence.
  Qed.

  Lemma key_not_delim : forall t, key_kind t -> tok_eqb t TObjectEnd = false.
  Proof. intros t Ht. unfold key_kind in Ht. cbn in Ht. intuition subst; reflexivity. Qed.

  Lemma oobj_step : forall f, P_exec f -> P_oobj f -> P_oobj (S f).
  Proof.
    intros f Hexec IH ms x first i s t wcl tail HA HR. cbn [matchOA tOA]. cbn [E me_doc me_tree isArr endTok].
    destruct ms as [|m r].
    - cbn [map]. rewrite (obj_end _ _ _ _ HA).
      assert (tok_eqb TObjectEnd TObjectEnd = true) as Et by reflexivity. rewrite Et.
      destruct first; apply osim_ok; cbn; repeat split; auto; apply HR.
    - destruct (mem_at _ _ _ _ _ _ HA) as (Hc & Hs & Hk & Hs1 & Hs2 & Hv & Hrest & Hend). cbn zeta in *.
      assert (key_kind (m_kt m)) as HK by (destruct HA as (_ & X & _); inversion X as [|? ? (_&_&_&_&Y&_) _]; auto).
      set (k := ms_pos s + length (comma_text first (m_wc m)) + length (m_wk m)) in *.
      set (p1 := k + length (m_kx m)) in *. set (p2 := p1 + length (m_wd m) + 1) in *.
      set (a := p2 + length (m_wv m)) in *.
      cbn [map].
      assert (forall j s0, rel s0 t -> ms_pos s0 = ms_pos s + length (comma_text first (m_wc m)) ->
        osim (fun r0 rt => rel (fst (fst r0)) (fst (fst rt)) /\ snd (fst r0) = false /\ snd r0 = snd (fst rt)
                      /\ (snd rt = false -> ms_pos (fst (fst r0)) = ms_pos s + obj_len first (m :: r) wcl))
          (match step doc (ms_pos s0) with
           | SErr => Ok (s0, true, true)
           | SOk t1 a1 b1 =>
            let sa := setPos s0 b1 in
            if tok_eqb t1 TObjectEnd then Ok (sa, false, true)
            else
              do kv <-
                (do key <- keyOf t1 (slice doc a1 b1);
                   match step doc (ms_pos sa) with
                   | SErr => Ok None
                   | SOk t2 _ b2 =>
                       if tok_eqb t2 TObjectKeyDelim then
                         match step doc b2 with
                         | SErr => Ok None
                         | SOk t3 a3 b3 => Ok (Some (key, t3, a3, setPos sa b3))
                         end
                       else Panic
                   end);
              match kv with
              | None =>
                  Ok (match step doc (ms_pos sa) with
                      | SErr => sa
                      | SOk _ _ b2 => setPos sa b2
                      end, true, true)
              | Some (key, tv, av, s2) =>
                  match lookup key (x_elems x) with
                  | Some c =>
                      do (s3, _) <- matchExec f E tv av c s2;
                      do done <- isResolved (ms_data s3) 0;
                      if done : bool then Ok (s3, false, true)
                      else matchOA f E TObjectStart x false j s3
                  | None =>
                      do (s3, _) <- skipValue E tv s2;
                      matchOA f E TObjectStart x false j s3
                  end
              end
           end)
          (do key <- keyOf (m_kt m) (m_kx m);
            match lookup key (x_elems x) with
            | Some c =>
                do (sa, out) <- tExec o H T root f (m_v m) c t;
                do done <- isResolved (ts_data sa) 0;
                if done : bool then Ok (sa, true, true)
                else if out : bool then Err
                else tOA o H T root f (map (fun m => (keyOf (m_kt m) (m_kx m), m_v m)) r) x false sa
            | None => tOA o H T root f (map (fun m => (keyOf (m_kt m) (m_kx m), m_v m)) r) x false t
            end)) as Hbody.
      { intros j s0 HR0 Hp0. cbn beta. rewrite Hp0, Hs. rewrite (key_not_delim _ HK). rewrite Hk.
        destruct (keyOf (m_kt m) (m_kx m)) as [key| | |]; cbn [obind]; try reflexivity; try exact I.
        cbn [setPos ms_pos]. rewrite Hs1.
        assert (tok_eqb TObjectKeyDelim TObjectKeyDelim = true) as Et by reflexivity. rewrite Et, Hs2. cbn [obind].
        destruct (lookup key (x_elems x)) as [c|].
        - eapply osim_bind.
          { apply (Hexec (m_v m) c _ t a Hv); [|reflexivity]. exact HR0. }
          intros [s2 err] [t2 out] (HR2 & _ & Hp3). cbn [fst snd] in *.
          rewrite (rel_data _ _ HR2). odone. destruct a0.
          + apply osim_ok. cbn. repeat split; try apply HR2. discriminate.
          + destruct out; [exact I|]. specialize (Hp3 eq_refl). rewrite <- Hp3 in Hrest.
            eapply osim_mono; [apply (IH r x false j s2 t2 wcl tail Hrest HR2)|].
            intros ra rb (X1 & X2 & X3 & X4). repeat split; auto; try apply X1. intro Y. rewrite X4 by auto. lia.
        - rewrite (skip_val a (m_v m)) by (auto; reflexivity). cbn [obind].
          eapply osim_mono; [eapply (IH r x false j _ t wcl tail)|].
          + exact Hrest.
          + exact HR0.
          + intros ra rb (X1 & X2 & X3 & X4). repeat split; auto; try apply X1. intro Y. rewrite X4 by auto.
            cbn [setPos ms_pos]. lia. }
      destruct first.
      + apply Hbody; auto. all: cbn; lia.
      + rewrite (Hc eq_refl). apply Hbody; [now apply rel_pos|reflexivity].
  Qed.

  Lemma relp_rel : forall p s t, relp p s t -> rel s t.
  Proof. intros p s t X. apply X. Qed.

  Lemma tRunOps_out : forall ops lit t t', tRunOps o T root ops lit t = Ok (t', true) ->
    isResolved (ts_data t') 0 = Ok true.
  Proof.
    induction ops as [|op r IH]; intros lit t t' He; cbn [tRunOps] in He; [discriminate|].
    destruct (tMatchOp o T root op lit t) as [ta| | |]; try discriminate. cbn [obind] in He.
    destruct (isResolved (ts_data ta) 0) as [b| | |] eqn:Er; try discriminate. cbn [obind] in He.
    destruct b; [inversion He; subst; auto|eapply IH; eauto].
  Qed.

  Lemma tAfterLoops_out : forall f ls t t', tAfterLoops o H T root f ls t = Ok (t', true) ->
    isResolved (ts_data t') 0 = Ok true.
  Proof.
    induction f as [|f IH]; intros [|l r] t t' He; cbn [tAfterLoops] in He; try discriminate.
    destruct (lp_target l) as [[|[|i]|n ps|v]|]; try discriminate.
    destruct (idx (ts_slots t) i) as [ov| | |]; try discriminate. cbn [obind] in He.
    match type of He with obind ?X _ = _ => destruct X as [ta| | |]; try discriminate end. cbn [obind] in He.
    destruct (isResolved (ts_data ta) 0) as [b| | |] eqn:Er; try discriminate. cbn [obind] in He.
    destruct b; [inversion He; subst; auto|eapply IH; eauto].
  Qed.

  Lemma tOA_S : forall f its x first t, tOA o H T root (S f) its x first t =
    match its with
    | [] => Ok (t, first, false)
    | (k, v) :: r =>
        do key <- k;
        match lookup key (x_elems x) with
        | Some c =>
            do (sa, out) <- tExec o H T root f v c t;
            do done <- isResolved (ts_data sa) 0;
            if done : bool then Ok (sa, true, true)
            else if out : bool then Err
            else tOA o H T root f r x false sa
        | None => tOA o H T root f r x false t
        end
    end.
  Proof. reflexivity. Qed.

  Lemma tOA_out : forall f its x first t t' ou, tOA o H T root f its x first t = Ok (t', false, ou) -> ou = false.
  Proof.
    induction f as [|f IH]; intros its x first t t' ou He; [discriminate|]; rewrite tOA_S in He.
    destruct its as [|[k v] r]; [inversion He; auto|].
    destruct k as [key| | |]; try discriminate. cbn [obind] in He.
    destruct (lookup key (x_elems x)) as [c|]; [|eapply IH; eauto].
    destruct (tExec o H T root f v c t) as [[ta b]| | |]; try discriminate. cbn [obind] in He.
    destruct (isResolved (ts_data ta) 0) as [d| | |]; try discriminate. cbn [obind] in He.
    destruct d; [now inversion He|]. destruct b; [now inversion He|]. eapply IH; eauto.
  Qed.

  Lemma tAfter_S : forall f af t, tAfter o H T root (S f) af t =
    do (sa, out) <- tAfterLoops o H T root f (af_loops af) t;
    if out : bool then Ok (sa, true) else tRunOps o T root (af_ops af) None sa.
  Proof. reflexivity. Qed.

  Lemma tAfter_out : forall f af t t', tAfter o H T root f af t = Ok (t', true) ->
    isResolved (ts_data t') 0 = Ok true.
  Proof.
    intros [|f] af t t' He; [discriminate|]; rewrite tAfter_S in He.
    destruct (tAfterLoops o H T root f (af_loops af) t) as [[ta b]| | |] eqn:El; try discriminate. cbn [obind] in He.
    destruct b; [inversion He; subst; eapply tAfterLoops_out; eauto|eapply tRunOps_out; eauto].
  Qed.

  Lemma after_rest : forall f, P_after f -> forall x s t p, relp p s t ->
    osim (fun ra rb => rel (fst ra) (fst rb) /\ snd ra = snd rb /\ (snd rb = false -> ms_pos (fst ra) = p))
      match x_after x with
      | None => Ok (s, false)
      | Some af => do (sa, _) <- matchAfter f E af s; do done <- isResolved (ms_data sa) 0; Ok (sa, done)
      end
      match x_after x with
      | None => Ok (t, false)
      | Some af => do (sa, _) <- tAfter o H T root f af t; do done <- isResolved (ts_data sa) 0; Ok (sa, done)
      end.
  Proof.
    intros f Haf x s t p [HR Hp]. destruct (x_after x) as [af|]; [|apply osim_ok; cbn; auto].
    specialize (Haf af s t HR). pose proof (tAfter_out f af t) as Hout.
    destruct (tAfter o H T root f af t) as [[t2 o2]| | |]; cbn [osim] in Haf; cbn [obind];
      try (rewrite Haf; reflexivity); try exact I.
    destruct Haf as ([s2 e2] & -> & R2 & _ & P2). cbn [fst snd obind] in *.
    rewrite (rel_data _ _ R2). destruct (isResolved (ts_data t2) 0) as [b| | |] eqn:Er; cbn [obind]; try reflexivity; try exact I.
    apply osim_ok. cbn. split; auto. split; auto. intros ->.
    destruct o2; [|now rewrite P2]. specialize (Hout t2 eq_refl). congruence.
  Qed.

  Lemma tExec_S : forall fuel v n t, tExec o H T root (S fuel) v n t =
    do x <- idx H n;
    let finish := fun s : tst =>
      do (sa, ret) <-
        match x_after x with
        | None => Ok (s, false)
        | Some af =>
            do (sa, _) <- tAfter o H T root fuel af s;
            do done <- isResolved (ts_data sa) 0;
            Ok (sa, done)
        end;
      if ret : bool then Ok (sa, true)
      else do s2 <- tStore x v sa; Ok (s2, false) in
    let ops := fun (s : tst) =>
      do lit <- valOf o v;
      do (sa, ret) <- tRunOps o T root (x_ops x) (Some lit) s;
      if ret : bool then Ok (sa, true) else finish sa in
    match v with
    | CLit _ _ => ops t
    | CObj _ _ =>
        match x_elems x with
        | [] => ops t
        | _ =>
            do (sa, ret, out) <- tOA o H T root fuel (items v) x true t;
            do (s2, _) <- match x_after x with
                          | None => Ok (sa, false)
                          | Some af => tAfter o H T root fuel af sa
                          end;
            if ret : bool then match isResolved (ts_data s2) 0 with
                               | Ok done => if implb out done then Ok (s2, done) else Err
                               | _ => Err
                               end
            else do done <- isResolved (ts_data s2) 0;
                 if done : bool then Ok (s2, true) else ops s2
        end
    | CArr es _ =>
        match x_loops x with
        | [] =>
            do (sa, ret, out) <- tOA o H T root fuel (items v) x true t;
            if ret : bool then Ok (sa, out) else ops sa
        | ls =>
            do (sa, out) <- tLoops o H T root fuel ls es t;
            if out : bool then Ok (sa, true) else ops sa
        end
    end.
  Proof. reflexivity. Qed.

  Lemma exec_step : forall f, P_loops f -> P_oarr f -> P_oobj f -> P_after f -> P_exec (S f).
  Proof.
    intros f Hl Ha Ho Haf v n s t a Hv HR Hp. rewrite tExec_S. cbn [matchExec]. cbn [E me_heap me_o me_doc].
    eapply osim_bind; [apply osim_eq; reflexivity|]. intros x ? <-.
    match goal with |- osim ?Q0 _ _ => set (Q := Q0) end.
    set (fin := fun s : mst =>
       do (sa, ret) <-
          match x_after x with
          | None => Ok (s, false)
          | Some af => do (sa, _) <- matchAfter f E af s; do done <- isResolved (ms_data sa) 0; Ok (sa, done)
          end;
        if ret : bool then Ok (sa, false) else do s2 <- storeSlot x a sa; Ok (s2, false)).
    set (finT := fun t : tst =>
       do (sa, ret) <-
          match x_after x with
          | None => Ok (t, false)
          | Some af => do (sa, _) <- tAfter o H T root f af t; do done <- isResolved (ts_data sa) 0; Ok (sa, done)
          end;
        if ret : bool then Ok (sa, true) else do s2 <- tStore x v sa; Ok (s2, false)).
    set (ops := fun (lit : fastval) (s : mst) =>
        do (sa, ret) <- runOps E (x_ops x) (Some lit) s;
        if ret : bool then Ok (sa, false) else fin sa).
    set (opsT := fun (t : tst) =>
        do lit <- valOf o v;
        do (sa, ret) <- tRunOps o T root (x_ops x) (Some lit) t;
        if ret : bool then Ok (sa, true) else finT sa).
    assert (forall s t, relp (a + length (render v)) s t -> osim Q (fin s) (finT t)) as Hfin.
    { clear s t HR Hp. intros s t HR. unfold fin, finT.
      eapply osim_bind; [apply (after_rest f Haf x s t _ HR)|].
      intros [s2 r2] [t2 r2'] (R2 & E2 & P2). cbn [fst snd] in *. subst r2'. destruct r2.
      + apply osim_ok. unfold Q. cbn [fst snd]. repeat split; try apply R2; try apply R3; auto; discriminate.
      + eapply osim_bind; [apply (store_sim x v a s2 t2); [split; auto|exact Hv]|].
        intros s3 t3 [R3 P3]. apply osim_ok. unfold Q. cbn [fst snd]. repeat split; auto; apply R3. }
    assert (forall lit s t, valOf o v = Ok lit -> relp (a + length (render v)) s t -> osim Q (ops lit s) (opsT t)) as Hops.
    { clear s t HR Hp. intros lit s t Hlit HR. unfold ops, opsT. rewrite Hlit. cbn [obind].
      eapply osim_bind; [exact (runOps_sim (x_ops x) (Some lit) s t _ HR)|].
      intros [s2 r2] [t2 r2'] (R2 & E2). cbn [fst snd] in *. subst r2'. destruct r2.
      - apply osim_ok. unfold Q. cbn [fst snd]. repeat split; try apply R2; auto; discriminate.
      - now apply Hfin. }
    destruct v as [tk lx|es wcl|ms wcl]; cbn [ftok flen] in *.
    - rewrite (ftok_lit_kind tk) by apply Hv. rewrite Hp, (lit_slice _ _ _ Hv).
      destruct (parseLit o tk lx) as [lit| | |] eqn:Elit; cbn [obind]; unfold opsT; cbn [valOf]; rewrite ?Elit;
        try reflexivity; try exact I.
      specialize (Hops lit s t Elit). unfold opsT in Hops. cbn [valOf] in Hops. rewrite Elit in Hops.
      apply Hops. split; auto. now rewrite render_lit.
    - cbn [isLiteralToken]. destruct (at_arr _ _ _ Hv) as (tail & HA & HL).
      assert (goSlice doc (ms_pos s - 1) (a + length (render (CArr es wcl))) = Ok (render (CArr es wcl))) as HG.
      { replace (ms_pos s - 1) with a by lia. now apply at_goSlice. }
      rewrite <- Hp in HA.
      destruct (x_loops x) as [|l0 lr] eqn:El.
      + pose proof (Ha es x true 0 s t wcl tail HA HR) as X. cbn [items].
        pose proof (fun t' ou => tOA_out f (arrItems 0 es) x true t t' ou) as Hou.
        destruct (tOA o H T root f (arrItems 0 es) x true t) as [[[t2 r2] o2]| | |]; cbn [osim] in X; cbn [obind];
          try (now rewrite X).
        2: exact I.
        destruct X as ([[s2 e2] r2'] & -> & R2 & E2 & E3 & P2). cbn [fst snd obind] in *. subst e2 r2'.
        destruct r2.
        * apply osim_ok. unfold Q. cbn [fst snd]. split; auto. split; auto. intro Y. rewrite P2 by auto. lia.
        * rewrite (Hou _ _ eq_refl) in P2. specialize (P2 eq_refl).
          replace (ms_pos s2) with (a + length (render (CArr es wcl))) by lia.
          rewrite HG. cbn [obind]. apply Hops; [reflexivity|]. split; auto. lia.
      + pose proof (Hl (l0 :: lr) es wcl tail (ms_pos s) true s t HA HR eq_refl) as X.
        destruct (tLoops o H T root f (l0 :: lr) es t) as [[t2 o2]| | |]; cbn [osim] in X; cbn [obind];
          try (now rewrite X).
        2: exact I.
        destruct X as ([s2 e2] & -> & R2 & E2 & P2). cbn [fst snd obind] in *. subst e2.
        destruct o2.
        * apply osim_ok. unfold Q. cbn [fst snd]. repeat split; try apply R2; try apply R3; auto; discriminate.
        * assert (l0 :: lr <> []) as Hne by discriminate. specialize (P2 eq_refl (fun _ => Hne)).
          replace (ms_pos s2) with (a + length (render (CArr es wcl))) by lia.
          rewrite HG. cbn [obind]. apply Hops; [reflexivity|]. split; auto. lia.
    - cbn [isLiteralToken]. destruct (at_obj _ _ _ Hv) as (tail & HA & HL).
      assert (goSlice doc (ms_pos s - 1) (a + length (render (CObj ms wcl))) = Ok (render (CObj ms wcl))) as HG.
      { replace (ms_pos s - 1) with a by lia. now apply at_goSlice. }
      destruct (x_elems x) as [|e0 er] eqn:El.
      + change TObjectStart with (ftok (CObj ms wcl)). rewrite (skip_val a (CObj ms wcl) s Hv Hp). cbn [obind].
        cbn [setPos ms_pos]. rewrite HG. cbn [obind]. apply Hops; [reflexivity|]. split; auto.
      + rewrite <- Hp in HA. pose proof (Ho ms x true 0 s t wcl tail HA HR) as X.
        pose proof (fun t' ou => tOA_out f (items (CObj ms wcl)) x true t t' ou) as Hou. cbn [items] in *.
        destruct (tOA o H T root f (map (fun m => (keyOf (m_kt m) (m_kx m), m_v m)) ms) x true t) as [[[t2 r2] o2]| | |];
          cbn [osim] in X; cbn [obind]; try (now rewrite X).
        2: exact I.
        destruct X as ([[s2 e2] r2'] & -> & R2 & E2 & E3 & P2). cbn [fst snd obind] in *. subst e2 r2'.
        pose proof (match x_after x as q return
           osim (fun ra rb => rel (fst ra) (fst rb) /\ snd ra = false /\ (snd rb = false -> ms_pos (fst ra) = ms_pos s2))
              match q with None => Ok (s2, false) | Some af => matchAfter f E af s2 end
              match q with None => Ok (t2, false) | Some af => tAfter o H T root f af t2 end
           with None => osim_ok _ _ (fun ra rb => rel (fst ra) (fst rb) /\ snd ra = false /\ (snd rb = false -> ms_pos (fst ra) = ms_pos s2)) (s2, false) (t2, false) (conj R2 (conj eq_refl (fun _ => eq_refl)))
            | Some af => Haf af s2 t2 R2 end) as X.
        assert (forall t', match x_after x with None => Ok (t2, false) | Some af => tAfter o H T root f af t2 end = Ok (t', true) ->
                  isResolved (ts_data t') 0 = Ok true) as Haf2.
        { intros t' He. destruct (x_after x); [|discriminate]. eapply tAfter_out; eauto. }
        destruct (match x_after x with None => Ok (t2, false) | Some af => tAfter o H T root f af t2 end) as [[t3 o3]| | |];
          cbn [osim] in X; cbn [obind]; try (now rewrite X).
        2: exact I.
        destruct X as ([s3 e3] & -> & R3 & E3 & P3). cbn [fst snd obind] in *. subst e3.
        assert (isResolved (ts_data t3) 0 <> Ok true -> ms_pos s3 = ms_pos s2) as P4.
        { intro Y. destruct o3; auto. destruct Y; auto. }
        destruct r2.
        * cbn [obind]. destruct (isResolved (ts_data t3) 0) as [dn| | |] eqn:Edn; cbn [obind].
          -- destruct (implb o2 dn) eqn:Ei; [|exact I]. apply osim_ok. unfold Q. cbn [fst snd]. split; auto. split; auto.
             intros ->. rewrite P4 by discriminate. destruct o2; [discriminate|]. rewrite P2 by auto. lia.
          -- exact I.
          -- exact I.
          -- exact I.
        * rewrite (rel_data _ _ R3).
          destruct (isResolved (ts_data t3) 0) as [dn| | |] eqn:Edn; cbn [obind]; try reflexivity; try exact I.
          rewrite (Hou _ _ eq_refl) in P2. specialize (P2 eq_refl). destruct dn.
          -- apply osim_ok. unfold Q. cbn [fst snd]. repeat split; try apply R2; try apply R3; auto; discriminate.
          -- rewrite P4 by discriminate. rewrite P2.
             replace (ms_pos s + obj_len true ms wcl) with (a + length (render (CObj ms wcl))) by lia.
             rewrite HG. cbn [obind]. apply Hops; [reflexivity|]. split; auto. rewrite P4 by discriminate. lia.
  Qed.

  Lemma sim_all : forall f,
    P_exec f /\ P_loops f /\ P_oarr f /\ P_oobj f /\ P_loop f /\ P_iters f /\ P_after f /\ P_aloops f.
  Proof.
    induction f as [|f (H1 & H2 & H3 & H4 & H5 & H6 & H7 & H8)].
    - repeat match goal with |- _ /\ _ => split end; repeat (intro; intros); exact eq_refl.
    - repeat match goal with |- _ /\ _ => split end.
      + now apply exec_step.
      + now apply loops_step.
      + now apply oarr_step.
      + now apply oobj_step.
      + now apply loop_step.
      + now apply iters_step.
      + now apply after_step.
      + now apply aloops_step.
  Qed.

End Sim.

(** [Match] on the document is [tMatch] on its tree. *)
Section SimDoc.
  Variable o : oracles.
  Variable H : list execnode.
  Variable T : list node.
  Variable w1 : bytes.
  Variable root : cst.
  Variable w2 : bytes.
  Hypothesis Hw1 : ws w1.
  Hypothesis Hroot : wf_cst root.
  Hypothesis Hw2 : num_stop w2.
  Variable doc : bytes.
  Hypothesis Hdoc : doc = doc_text w1 root w2.

  Lemma root_step_doc : step doc 0 = SOk (ftok root) (length w1) (length w1 + flen root).
  Proof.
    rewrite (step_val doc 0 w1 root w2); auto.
  Qed.

  Lemma root_at_doc : at_val doc (length w1) root.
  Proof.
    split; auto. exists w2. split; [exact Hw2|]. rewrite Hdoc. unfold doc_text. now apply skipn_app_exact.
  Qed.

  Ltac odone := eapply osim_bind; [apply osim_eq; reflexivity|]; intros ? ? <-.

  Theorem match_sim : forall fuel D s t, d_heap D = Some H -> d_tree D = T -> rel doc s t ->
    osim (fun r rt => rel doc (fst r) (fst rt) /\ snd r = Some (snd rt))
      (match_ fuel o D doc s) (tMatch o H T root fuel t).
  Proof.
    intros fuel D s t HH HT HR. unfold match_, tMatch.
    pose proof (at_bound doc _ _ root_at_doc) as X. pose proof (render_pos _ Hroot).
    assert (exists c0 dr, doc = c0 :: dr) as (c0 & dr & Ed).
    { clear - X H0. destruct doc; [cbn in X; lia|eauto]. }
    replace (match doc with [] => _ | _ :: _ => _ end) with
      (match step doc 0 with
      | SErr => Ok (setPos s 0, None)
      | SOk t a b =>
          match d_heap D with
          | None => Panic
          | Some h =>
              let E := MEnv o h (d_tree D) doc in
              do (sa, err) <- matchExec fuel E t a 0 (setPos (setPos s 0) b);
              if err : bool then Ok (sa, None)
              else
                do d <- resolveAll (d_tree D) (ms_stall sa) (ms_data sa);
                do r <- isTrue d 0;
                Ok (setData sa d, Some r)
          end
      end) by (rewrite Ed; reflexivity).
    clear c0 dr Ed. rewrite root_step_doc, HH, HT.
    eapply osim_bind.
    { assert (match root with CObj _ _ => True | _ => at_val doc (length w1) root end) as Hr
        by (pose proof root_at_doc; destruct root; auto).
      apply (proj1 (sim_all o H T w1 root doc root_step_doc Hr fuel) root 0 _ t (length w1) root_at_doc); [|reflexivity]. exact HR. }
    intros [s2 e2] [t2 o2] (R2 & E2 & _). cbn [fst snd] in *. subst e2.
    rewrite (rel_data doc _ _ R2). replace (ms_stall s2) with (ts_stall t2) by (symmetry; apply R2).
    odone. odone. apply osim_ok. cbn [fst snd]. split; auto. now apply rel_setData.
  Qed.
End SimDoc.

(** Fresh and reset matchers hold no slot. *)
Definition tFresh (slots : nat) (T : list node) : tst := TSt (repeat None slots) (newState T) 0 false.

Lemma rel_fresh : forall doc D, rel doc (newMatcher D) (tFresh (d_slots D) (d_tree D)).
Proof.
  intros doc D. unfold newMatcher, tFresh. repeat split; cbn.
  induction (d_slots D); cbn; constructor; auto. reflexivity.
Qed.
