(** Statements about the predicate tree (properties C09-C15).

    A reporting session is a list of events: reports of leaves, and complete runs
    of loops whose iterations are sessions themselves (SEvents.v).  [runEvs] runs
    a session with the functions of the model the way the matcher does
    (MSession.v). [den] is the report an event amounts to; [first_report] the
    partial assignment built by a list of reports. *)
From Verif Require Import Base MBinTree SFormula SEvents SMerge MSession PBinTree PSession PMerge.
From Coq Require Import List Arith Lia Bool.
Import ListNotations.

(** Every formula has a layout, so the hypotheses [laid]/[length] below can
    always be met. *)
Theorem C09_layouts_exist : forall t, laid (lay 0 0 t) 0 0 t /\ length (lay 0 0 t) = fsize t.
Proof. intro t. split; [apply lay_laid|apply lay_length]. Qed.

Definition exForm : form := FAnd (FOr FLeaf (FNot FLeaf)) (FOr FLeaf (FLoop (FAnd FLeaf FLeaf))).
Definition exTree : list node := lay 0 0 exForm.

Ltac wf_session := repeat match goal with
  | |- Forall _ _ => constructor
  | |- wf_ev _ _ (ERep _ _) => apply wf_rep; cbn; auto 20
  | |- wf_ev _ _ (ELoop _ _ _ _) => apply wf_loop; [cbn; auto 20|]
  end.

(** C09: whatever the order (and repetition) of the events, once every atom is
    reported the root is settled with the value of the formula. *)
Theorem C09_any_order : forall t T l v,
  laid T 0 0 t -> length T = fsize t -> Forall (wf_ev 0 t) l ->
  (forall e, In e l -> snd (den e) = v (fst (den e))) ->
  (forall k, In k (atoms 0 t) -> In k (map fst (map den l))) ->
  exists d, runEvs T 0 l (newState T) = Ok d
    /\ isResolved d 0 = Ok true /\ isTrue d 0 = Ok (beval v 0 t).
Proof.
  intros t T l v HL HT HW HV HC.
  destruct (session_fresh t T l HL HT HW) as (d & E & HI & HA & Hd).
  exists d. split; [exact E|]. pose proof (fsize_pos t).
  unfold isResolved, isTrue. rewrite idx_st by lia. cbn [obind].
  rewrite (INV_state _ _ _ _ HI), (ov_keval _ _ _ HA).
  assert (forall m k b, first_report m k = Some b -> In (k, b) m) as FR.
  { induction m as [|[j c] m IH]; intros k b Hf; cbn in Hf; [discriminate|].
    destruct (Nat.eqb_spec j k) as [->|]; [inversion Hf; now left|right; auto]. }
  destruct (keval (first_report (map den l)) 0 t) as [x|] eqn:Ek.
  - assert (beval v 0 t = x) as <-.
    { eapply keval_beval; [|exact Ek]. intros k b _ Hf. apply FR in Hf. apply in_map_iff in Hf as (e & He & Hin).
      specialize (HV e Hin). rewrite He in HV. now symmetry. }
    destruct (beval v 0 t); auto.
  - exfalso. revert Ek. apply keval_total. intros k Hk. specialize (HC k Hk).
    clear - HC. induction l as [|e l IH]; cbn in *; [destruct HC|].
    destruct (den e) as [j c]. cbn in HC. destruct (Nat.eqb_spec j k); [discriminate|].
    destruct HC as [HC|HC]; [contradiction|auto].
Qed.

Example C09_example :
  Forall (wf_ev 0 exForm)
    [ELoop 8 (FAnd FLeaf FLeaf) LAny [[ERep 9 true; ERep 10 false]; [ERep 10 true; ERep 9 true]];
     ERep 4 true; ERep 6 false; ERep 2 false] /\
  (exists d, runEvs exTree 0
    [ELoop 8 (FAnd FLeaf FLeaf) LAny [[ERep 9 true; ERep 10 false]; [ERep 10 true; ERep 9 true]];
     ERep 4 true; ERep 6 false; ERep 2 false] (newState exTree) = Ok d /\ isTrue d 0 = Ok false).
Proof.
  split.
  - wf_session.
  - eexists. split; [vm_compute; reflexivity|reflexivity].
Qed.

(** The state of the root after any session is the three-valued value of the
    formula under the first reports. *)
Theorem C10_state_is_kleene : forall t T l,
  laid T 0 0 t -> length T = fsize t -> Forall (wf_ev 0 t) l ->
  exists d, runEvs T 0 l (newState T) = Ok d
    /\ isResolved d 0 = Ok (match keval (first_report (map den l)) 0 t with Some _ => true | None => false end)
    /\ isTrue d 0 = Ok (known_true (keval (first_report (map den l)) 0 t)).
Proof.
  intros t T l HL HT HW.
  destruct (session_fresh t T l HL HT HW) as (d & E & HI & HA & Hd).
  exists d. split; [exact E|]. pose proof (fsize_pos t).
  unfold isResolved, isTrue. rewrite idx_st by lia. cbn [obind].
  rewrite (INV_state _ _ _ _ HI), (ov_keval _ _ _ HA).
  destruct (keval (first_report (map den l)) 0 t) as [[]|]; auto.
Qed.

(** C10: an early result is the value of the formula under every completion, and
    later events do not change it. *)
Theorem C10_early_result_sound : forall t T l d,
  laid T 0 0 t -> length T = fsize t -> Forall (wf_ev 0 t) l ->
  runEvs T 0 l (newState T) = Ok d -> isResolved d 0 = Ok true ->
  (forall v, (forall k b, first_report (map den l) k = Some b -> v k = b) -> isTrue d 0 = Ok (beval v 0 t)) /\
  (forall l2, Forall (wf_ev 0 t) l2 ->
     exists d', runEvs T 0 l2 d = Ok d' /\ isResolved d' 0 = Ok true /\ isTrue d' 0 = isTrue d 0).
Proof.
  intros t T l d HL HT HW HR HS.
  destruct (session_fresh t T l HL HT HW) as (d0 & E & HI & HA & Hd). rewrite E in HR. inversion HR; subst d0.
  pose proof (fsize_pos t).
  assert (st d 0 <> SUnknown) as Hs.
  { unfold isResolved in HS. rewrite idx_st in HS by lia. cbn in HS. intro X. rewrite X in HS. discriminate. }
  split.
  - intros v Hv. unfold isTrue. rewrite idx_st by lia. cbn [obind].
    rewrite (INV_state _ _ _ _ HI), (ov_keval _ _ _ HA) in *.
    destruct (keval (first_report (map den l)) 0 t) as [x|] eqn:Ek; [|now contradiction Hs].
    assert (beval v 0 t = x) as -> by (eapply keval_beval; [|exact Ek]; auto).
    now destruct x.
  - intros l2 HW2.
    destruct (session_ok l2 t T 0 0 d _ HL Hd HI HA HW2) as (d' & E' & _ & _ & SO & KP).
    exists d'. split; [exact E'|]. assert (length d' = length T) by (destruct SO; congruence).
    unfold isResolved, isTrue. rewrite !idx_st by lia. cbn [obind]. rewrite (KP 0 Hs).
    split; auto. destruct (st d 0); auto. contradiction.
Qed.

Example C10_example :
  exists d, runEvs exTree 0 [ERep 2 false; ERep 4 true] (newState exTree) = Ok d
    /\ isResolved d 0 = Ok true /\ isTrue d 0 = Ok false.
Proof. eexists. split; [vm_compute; reflexivity|split; reflexivity]. Qed.

(** C10: and it waits no longer than necessary (outside merged expressions). *)
Theorem C10_waits_only_if_needed : forall t T l d,
  laid T 0 0 t -> length T = fsize t -> Forall (wf_ev 0 t) l -> neor_free t = true ->
  runEvs T 0 l (newState T) = Ok d -> isResolved d 0 = Ok false ->
  forall b, exists v, (forall k x, first_report (map den l) k = Some x -> v k = x) /\ beval v 0 t = b.
Proof.
  intros t T l d HL HT HW HN HR HS b.
  destruct (C10_state_is_kleene t T l HL HT HW) as (d0 & E & H1 & _).
  rewrite E in HR. inversion HR; subst d0. rewrite HS in H1.
  destruct (keval (first_report (map den l)) 0 t) eqn:Ek; [discriminate|].
  now apply keval_open.
Qed.

Example C10_waits_example :
  exists d, runEvs exTree 0 [ERep 2 true; ERep 6 false] (newState exTree) = Ok d
    /\ isResolved d 0 = Ok false /\ neor_free exForm = true.
Proof. eexists. split; [vm_compute; reflexivity|split; reflexivity]. Qed.

(** C11: no session panics, and after any session every unresolved leaf or loop
    body can be reported. *)
Theorem C11_no_double_marking : forall t T l,
  laid T 0 0 t -> length T = fsize t -> Forall (wf_ev 0 t) l ->
  exists d, runEvs T 0 l (newState T) = Ok d /\
    forall k b, In k (atoms 0 t) -> isResolved d k = Ok false ->
      exists d', mark T 0 d k b = Ok d' /\ isResolved d' k = Ok true.
Proof.
  intros t T l HL HT HW.
  destruct (session_fresh t T l HL HT HW) as (d & E & HI & HA & Hd).
  exists d. split; [exact E|]. intros k b Hk Hu. pose proof (atoms_range _ _ _ Hk).
  assert (st d k = SUnknown) as Hs.
  { unfold isResolved in Hu. rewrite idx_st in Hu by lia. cbn in Hu. destruct (st d k); auto; discriminate. }
  destruct (mark_spec t T 0 0 d _ k b 0 HL Hd HI) as (d' & E' & _ & SO & _ & Hk'); auto; try lia.
  exists d'. split; [exact E'|]. assert (length d' = length T) by (destruct SO; congruence).
  unfold isResolved. rewrite idx_st by lia. cbn. rewrite Hk'. now destruct b.
Qed.

Example C11_example :
  exists d, runEvs exTree 0 [ERep 2 true] (newState exTree) = Ok d
    /\ In 6 (atoms 0 exForm) /\ isResolved d 6 = Ok false
    /\ isResolved d 4 = Ok true /\ mark exTree 0 d 4 true = Panic.
Proof.
  eexists. split; [vm_compute; reflexivity|]. split; [cbn; auto|]. split; [reflexivity|].
  split; vm_compute; reflexivity.
Qed.

(** C12: finalising after any session settles the root with the value in which
    unreported leaves are false, and keeps what was settled. *)
Theorem C12_finalize : forall t T l,
  laid T 0 0 t -> length T = fsize t -> Forall (wf_ev 0 t) l ->
  exists d d', runEvs T 0 l (newState T) = Ok d /\ resolveAll T 0 d = Ok d'
    /\ isResolved d' 0 = Ok true
    /\ isTrue d' 0 = Ok (feval (first_report (map den l)) 0 t)
    /\ (forall k, isResolved d k = Ok true -> isResolved d' k = Ok true /\ isTrue d' k = isTrue d k).
Proof.
  intros t T l HL HT HW.
  destruct (session_fresh t T l HL HT HW) as (d & E & HI & HA & Hd).
  destruct (resolveAll_spec t T d _ HL HT Hd HI HA) as (d' & r' & E' & _ & _ & H0 & Hd' & KP).
  exists d, d'. split; [exact E|]. split; [exact E'|]. pose proof (fsize_pos t).
  unfold isResolved at 1, isTrue at 1. rewrite idx_st by lia. cbn [obind]. rewrite H0.
  split; [destruct (feval _ 0 t); reflexivity|]. split; [destruct (feval _ 0 t); reflexivity|].
  intros k Hk. unfold isResolved, isTrue in *.
  destruct (Nat.lt_ge_cases k (length d)) as [L|L].
  - rewrite (idx_st d k) in Hk |- * by lia. rewrite !(idx_st d' k) by lia. cbn [obind] in *.
    assert (st d k <> SUnknown) as Hs by (intro X; rewrite X in Hk; discriminate).
    rewrite (KP k Hs). auto.
  - exfalso. unfold idx in Hk. rewrite (proj2 (nth_error_None d k) L) in Hk. discriminate.
Qed.

(** The final value is the two-valued value when no loop is left unreported. *)
Theorem C12_finalize_unreported_false : forall t r i,
  (forall k a, In (k, a) (bodies i t) -> r k <> None) ->
  feval r i t = beval (fun k => match r k with Some b => b | None => false end) i t.
Proof.
  induction t as [|[] a IH|o a IHa b IHb]; intros r i H; cbn [feval beval bodies] in *; auto.
  - now rewrite IH.
  - destruct (r (S i)) eqn:E; auto. exfalso. apply (H (S i) a); [now left|exact E].
  - rewrite IHa, IHb; auto; intros k c Hk; apply (H k c), in_app_iff; auto.
Qed.

Example C12_example :
  exists d d', runEvs exTree 0 [ERep 6 true] (newState exTree) = Ok d
    /\ isResolved d 0 = Ok false
    /\ resolveAll exTree 0 d = Ok d' /\ isTrue d' 0 = Ok true.
Proof. do 2 eexists. split; [vm_compute; reflexivity|]. split; [reflexivity|]. split; vm_compute; reflexivity. Qed.

(** C13: iterations of a loop body, from any state of the whole tree. *)
Theorem C13_iteration_local : forall t T k a d l,
  laid T 0 0 t -> In (k, a) (bodies 0 t) -> length d = length T -> Forall (wf_ev k a) l ->
  exists d1 d2, resetNode T d k = Ok d1 /\ runEvs T k l d1 = Ok d2
    /\ (forall j, k <= j < k + fsize a -> isResolved d1 j = Ok false)
    /\ (forall j, j < k \/ k + fsize a <= j -> nth_error d1 j = nth_error d j /\ nth_error d2 j = nth_error d j)
    /\ isTrue d2 k = Ok (known_true (keval (first_report (map den l)) k a)).
Proof.
  intros t T k a d l HL Hk Hd HW.
  destruct (laid_body _ _ _ _ _ _ HL Hk) as (p & HLk). pose proof (laid_bound _ _ _ _ HLk). pose proof (fsize_pos a).
  destruct (resetNode_spec a T p k d HLk Hd) as (d1 & E1 & S1 & U1).
  assert (length d1 = length T) as Hd1 by (destruct S1; congruence).
  destruct (session_ok l a T p k d1 (fun _ => None) HLk Hd1) as (d2 & E2 & HI & HA & S2 & _); auto.
  { now apply INV_fresh. }
  { intros j Hj Hr. congruence. }
  assert (length d2 = length T) as Hd2 by (destruct S2; congruence).
  assert (forall (x y : sdata) j, length x = length y -> st x j = st y j -> nth_error x j = nth_error y j) as NE.
  { intros x y j Hl Hst. destruct (Nat.lt_ge_cases j (length x)).
    - unfold st in Hst. rewrite (nth_error_nth' x SUnknown), (nth_error_nth' y SUnknown) by lia. congruence.
    - now rewrite (proj2 (nth_error_None x j)), (proj2 (nth_error_None y j)) by lia. }
  exists d1, d2. split; [exact E1|]. split; [exact E2|]. split; [|split].
  - intros j Hj. unfold isResolved. rewrite idx_st by lia. cbn. now rewrite U1.
  - intros j Hj. split; apply NE; try congruence.
    + now apply (proj2 S1).
    + rewrite (proj2 S2) by auto. now apply (proj2 S1).
  - unfold isTrue. rewrite idx_st by lia. cbn [obind]. rewrite (INV_state _ _ _ _ HI), (ov_keval _ _ _ HA).
    rewrite (keval_ext a (first_report (map den l))) by reflexivity.
    now destruct (keval (first_report (map den l)) k a) as [[]|].
Qed.

(** C13: after any session, running any loop whose body is still open amounts to
    reporting one value for it: the state afterwards is exactly the state that a
    direct report gives. *)
Theorem C13_loop_is_one_report : forall t T l k a m its d,
  laid T 0 0 t -> length T = fsize t -> Forall (wf_ev 0 t) l ->
  runEvs T 0 l (newState T) = Ok d ->
  In (k, a) (bodies 0 t) -> isResolved d k = Ok false -> Forall (Forall (wf_ev k a)) its ->
  runEv T 0 (ELoop k a m its) d
  = mark T 0 d k (quant m (map (fun it => known_true (keval (first_report (map den it)) k a)) its)).
Proof.
  intros t T l k a m its d HL HT HW HR Hk Hu Hits.
  destruct (session_fresh t T l HL HT HW) as (d0 & E & HI & HA & Hd). rewrite E in HR. inversion HR; subst d0.
  pose proof (bodies_size _ _ _ _ Hk) as [B1 B2]. pose proof (fsize_pos a) as Pa.
  destruct (laid_body _ _ _ _ _ _ HL Hk) as (p' & HLk).
  assert (st d k = SUnknown) as Hs.
  { unfold isResolved in Hu. rewrite idx_st in Hu by lia. cbn in Hu. destruct (st d k); auto; discriminate. }
  pose proof (body_unk _ _ _ _ _ _ HI HA Hk Hs) as BU.
  rewrite runEv_loop. unfold runLoop. rewrite Hu. cbn [obind].
  set (vals := map (fun it => known_true (keval (first_report (map den it)) k a)) its).
  destruct (runIters_spec (map (fun it => runEvs T k it) its) vals T p' k a m (loopInit m) d HLk Hd)
    as (d1 & -> & S1).
  { unfold vals. clear - Hits HLk. induction its as [|it its IHi]; cbn; constructor.
    - inversion Hits as [|? ? W1 _]; subst. intros d1 Hd1 U1.
      destruct (session_ok it a T p' k d1 (fun _ => None) HLk Hd1) as (d2 & E2 & HI2 & HA2 & SO2 & _); auto.
      + apply INV_fresh; auto.
      + intros j Hj Hr. congruence.
      + exists d2. split; [exact E2|]. split; [exact SO2|].
        rewrite (INV_state _ _ _ _ HI2), ov_keval by auto.
        rewrite (keval_ext a (first_report (map den it))) by reflexivity.
        destruct (keval (first_report (map den it)) k a) as [[]|]; reflexivity.
    - inversion Hits; subst. auto. }
  cbn [obind]. assert (length d1 = length T) as Hd1 by (destruct S1; congruence).
  destruct (resetNode_spec a T p' k d1 HLk Hd1) as (d2 & -> & S2 & U2). cbn [obind].
  assert (d2 = d) as ->.
  { apply (nth_ext _ _ SUnknown SUnknown); [destruct S1, S2; congruence|].
    intros j _. change (st d2 j = st d j).
    destruct (Nat.lt_ge_cases j k) as [H|H]; [|destruct (Nat.lt_ge_cases j (k + fsize a))].
    - rewrite (proj2 S2), (proj2 S1) by lia. reflexivity.
    - rewrite U2, BU by lia. reflexivity.
    - rewrite (proj2 S2), (proj2 S1) by lia. reflexivity. }
  now rewrite foldLoop_quant.
Qed.

Example C13_example :
  In (8, FAnd FLeaf FLeaf) (bodies 0 exForm) /\
  exists d, runEvs exTree 0 [ERep 6 false] (newState exTree) = Ok d /\ isResolved d 8 = Ok false /\
    runEv exTree 0 (ELoop 8 (FAnd FLeaf FLeaf) LEvery [[ERep 9 true; ERep 10 true]; [ERep 9 false]]) d
    = mark exTree 0 d 8 false.
Proof. split; [cbn; auto|]. eexists. split; [vm_compute; reflexivity|]. split; vm_compute; reflexivity. Qed.

(** C14: expressions [e], [es] side by side.  After any session the part of each
    has its own three-valued value; the whole is settled exactly when all parts
    are, with their disjunction. *)
Theorem C14_merged_independent : forall e es T l,
  laid T 0 0 (merged e es) -> length T = fsize (merged e es) -> Forall (wf_ev 0 (merged e es)) l ->
  exists d, runEvs T 0 l (newState T) = Ok d /\
    (forall k f, In (k, f) (mbuckets 0 e es) ->
       isResolved d k = Ok (match keval (first_report (map den l)) k f with Some _ => true | None => false end)
       /\ isTrue d k = Ok (known_true (keval (first_report (map den l)) k f))) /\
    (isResolved d 0 = Ok true <-> forall k f, In (k, f) (mbuckets 0 e es) -> isResolved d k = Ok true) /\
    (isResolved d 0 = Ok true ->
     isTrue d 0 = Ok (existsb (fun kf => known_true (keval (first_report (map den l)) (fst kf) (snd kf))) (mbuckets 0 e es))).
Proof.
  intros e es T l HL HT HW.
  destruct (session_fresh _ T l HL HT HW) as (d & E & HI & HA & Hd).
  exists d. split; [exact E|]. pose proof (fsize_pos (merged e es)).
  set (r := first_report (map den l)) in *.
  pose proof (on_atoms_neors _ _ _ _ HA) as HN.
  assert (forall k f, In (k, f) (mbuckets 0 e es) ->
    isResolved d k = Ok (match keval r k f with Some _ => true | None => false end)
    /\ isTrue d k = Ok (known_true (keval r k f))) as P1.
  { intros k f Hk. pose proof (mbuckets_range _ _ _ _ _ Hk) as [R1 R2]. pose proof (fsize_pos f).
    pose proof (INV_part _ _ _ _ _ _ _ HI HN Hk) as HIk. pose proof (merged_part _ _ _ _ _ _ HA Hk) as HAk.
    unfold isResolved, isTrue. rewrite idx_st by lia. cbn [obind].
    rewrite (INV_state _ _ _ _ HIk), (ov_keval _ _ _ HAk). destruct (keval r k f) as [[]|]; auto. }
  assert (map (fun kf => ov r (fst kf) (snd kf)) (mbuckets 0 e es)
          = map (fun kf => keval r (fst kf) (snd kf)) (mbuckets 0 e es)) as EM.
  { apply map_ext_in. intros [k f] Hk. apply ov_keval. eapply merged_part; eauto. }
  pose proof (ov_merged es e r 0 HN) as OM. rewrite EM in OM.
  pose proof (INV_state _ _ _ _ HI) as S0.
  split; [exact P1|]. split; [split|].
  - intros H0 k f Hk. rewrite (proj1 (P1 k f Hk)).
    unfold isResolved in H0. rewrite idx_st in H0 by lia. cbn [obind] in H0. rewrite S0, OM in H0.
    destruct (all_some _) as [q|] eqn:Eq; [|discriminate]. apply all_some_forall in Eq.
    assert (In (keval r k f) (map Some q)) as Hin.
    { rewrite <- Eq. change (keval r k f) with ((fun kf => keval r (fst kf) (snd kf)) (k, f)). now apply in_map. }
    apply in_map_iff in Hin as (b & <- & _). reflexivity.
  - intro H0. unfold isResolved. rewrite idx_st by lia. cbn [obind]. rewrite S0, OM.
    destruct (all_some _) as [q|] eqn:Eq.
    + now destruct (existsb _ q).
    + exfalso. revert Eq. apply all_some_some. intros x Hx. apply in_map_iff in Hx as ([k f] & <- & Hk).
      specialize (H0 k f Hk). rewrite (proj1 (P1 k f Hk)) in H0. cbn. destruct (keval r k f); congruence.
  - intro H0. unfold isTrue. unfold isResolved in H0. rewrite idx_st in * by lia. cbn [obind] in *.
    rewrite S0, OM in *.
    destruct (all_some _) as [q|] eqn:Eq; [|discriminate]. apply all_some_forall in Eq.
    assert (existsb (fun kf => known_true (keval r (fst kf) (snd kf))) (mbuckets 0 e es) = existsb (fun b => b) q) as ->.
    { clear - Eq. revert q Eq. induction (mbuckets 0 e es) as [|[k f] m IH]; intros [|b q] Eq; cbn in Eq; try discriminate; auto.
      inversion Eq as [[E1 E2]]. cbn. rewrite E1. cbn. rewrite (IH q E2). now destruct b. }
    now destruct (existsb _ q).
Qed.

(** C14: the same after finalising. *)
Theorem C14_merged_final : forall e es T l,
  laid T 0 0 (merged e es) -> length T = fsize (merged e es) -> Forall (wf_ev 0 (merged e es)) l ->
  exists d d', runEvs T 0 l (newState T) = Ok d /\ resolveAll T 0 d = Ok d' /\
    (forall k f, In (k, f) (mbuckets 0 e es) ->
       isResolved d' k = Ok true /\ isTrue d' k = Ok (feval (first_report (map den l)) k f)) /\
    isTrue d' 0 = Ok (existsb (fun kf => feval (first_report (map den l)) (fst kf) (snd kf)) (mbuckets 0 e es)).
Proof.
  intros e es T l HL HT HW.
  destruct (session_fresh _ T l HL HT HW) as (d & E & HI & HA & Hd).
  destruct (resolveAll_spec _ T d _ HL HT Hd HI HA) as (d' & r' & E' & HI' & HC & H0 & Hd' & KP).
  exists d, d'. split; [exact E|]. split; [exact E'|]. pose proof (fsize_pos (merged e es)).
  set (r := first_report (map den l)) in *.
  pose proof (closes_neors _ _ _ _ _ HC (on_atoms_neors _ _ _ _ HA)) as HN.
  split.
  - intros k f Hk. pose proof (mbuckets_range _ _ _ _ _ Hk) as [R1 R2]. pose proof (fsize_pos f).
    pose proof (INV_part _ _ _ _ _ _ _ HI' HN Hk) as HIk. pose proof (merged_part _ _ _ _ _ _ HA Hk) as HAk.
    pose proof (closes_part _ _ _ _ _ _ _ HC Hk) as HCk.
    unfold isResolved, isTrue. rewrite idx_st by lia. cbn [obind]. rewrite (INV_state _ _ _ _ HIk).
    destruct (ov r' k f) as [v|] eqn:Ev.
    + rewrite (closes_feval f r r' k v HAk HCk Ev). destruct (feval r k f); auto.
    + exfalso. pose proof (INV_state _ _ _ _ HI') as S0. rewrite H0, (ov_merged es e r' 0 HN) in S0.
      destruct (all_some _) as [q|] eqn:Eq; [|now destruct (feval r 0 (merged e es))].
      apply all_some_forall in Eq.
      assert (In (ov r' k f) (map Some q)) as Hin.
      { rewrite <- Eq. change (ov r' k f) with ((fun kf => ov r' (fst kf) (snd kf)) (k, f)). now apply in_map. }
      rewrite Ev in Hin. apply in_map_iff in Hin as (b & X & _). discriminate.
  - unfold isTrue. rewrite idx_st by lia. cbn [obind]. rewrite H0, feval_merged. now destruct (existsb _ _).
Qed.

Example C14_example :
  let e := FOr FLeaf FLeaf in let es := [FNot FLeaf; FAnd FLeaf FLeaf] in
  let T := lay 0 0 (merged e es) in
  mbuckets 0 e es = [(1, e); (5, FNot FLeaf); (7, FAnd FLeaf FLeaf)] /\
  Forall (wf_ev 0 (merged e es)) [ERep 6 false; ERep 8 false] /\
  exists d, runEvs T 0 [ERep 6 false; ERep 8 false] (newState T) = Ok d
    /\ isResolved d 0 = Ok false /\ isTrue d 5 = Ok true /\ isResolved d 7 = Ok true.
Proof.
  cbv zeta. split; [reflexivity|]. split; [wf_session|].
  eexists. split; [vm_compute; reflexivity|]. split; [reflexivity|split; reflexivity].
Qed.

(** C15: what validation accepts, exactly. *)
Theorem C15_validate_exact : forall T,
  validate T = Ok tt <-> exists t, shaped T 0 0 t /\ length T = fsize t.
Proof. exact validate_iff. Qed.

Theorem C15_laid_out_trees_accepted : forall t T,
  laid T 0 0 t -> length T = fsize t -> validate T = Ok tt.
Proof. intros t T HL HT. apply validate_iff. exists t. split; auto. now apply laid_shaped. Qed.

Theorem C15_validate_terminates : forall T, validate T <> OutOfFuel.
Proof. exact validate_fuel. Qed.

Example C15_example : validate exTree = Ok tt /\ validate (Node NOr 0 1 2 :: Node NLeaf 0 0 0 :: Node NLeaf 1 0 0 :: nil) = Err.
Proof. split; vm_compute; reflexivity. Qed.

(** The converse fails: child links are only range-checked.  This array passes
    validation, but both child links of the root point to its second child, and
    marking the first child true does not settle the disjunction. *)
Theorem C15_accepted_layout_refuted :
  exists T d, validate T = Ok tt /\ ~ (exists t, laid T 0 0 t) /\
    mark T 0 (newState T) 1 true = Ok d /\ isResolved d 0 = Ok false.
Proof.
  exists [Node NOr 0 2 2; Node NLeaf 0 0 0; Node NLeaf 0 0 0], [SUnknown; STrue; SUnknown].
  split; [reflexivity|]. split; [|split; reflexivity].
  intros (t & H). destruct t as [|[]|[]]; cbn in H; try (destruct H as (? & ? & H); discriminate);
    try (destruct H as (H & _); discriminate).
Qed.

(** Validation itself can run off the end of the array. *)
Theorem C15_validate_panics_refuted : exists T, T <> [] /\ validate T = Panic.
Proof.
  exists [Node NOr 0 1 1; Node NLeaf 0 0 0]. split; [discriminate|reflexivity].
Qed.

Print Assumptions C09_layouts_exist.
Print Assumptions C09_any_order.
Print Assumptions C10_state_is_kleene.
Print Assumptions C10_early_result_sound.
Print Assumptions C10_waits_only_if_needed.
Print Assumptions C11_no_double_marking.
Print Assumptions C12_finalize.
Print Assumptions C12_finalize_unreported_false.
Print Assumptions C13_iteration_local.
Print Assumptions C13_loop_is_one_report.
Print Assumptions C14_merged_independent.
Print Assumptions C14_merged_final.
Print Assumptions C15_validate_exact.
Print Assumptions C15_laid_out_trees_accepted.
Print Assumptions C15_accepted_layout_refuted.
