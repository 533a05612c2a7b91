(** Proofs about reporting sessions. *)
From Verif Require Import Base MBinTree SFormula SEvents MSession PBinTree.
From Coq Require Import List Arith Lia Bool.
Import ListNotations.

(** ** Atoms *)

Lemma atoms_range : forall t i k, In k (atoms i t) -> i <= k < i + fsize t.
Proof.
  induction t as [|[] a IH|o a IHa b IHb]; intros i k H; cbn [atoms fsize] in *.
  - destruct H as [<-|[]]. lia.
  - apply IH in H. lia.
  - destruct H as [<-|[]]. pose proof (fsize_pos a). lia.
  - apply in_app_iff in H as [H|H]; [apply IHa in H|apply IHb in H]; lia.
Qed.

Lemma leaves_atoms : forall t i k, In k (leaves i t) -> In k (atoms i t).
Proof.
  induction t as [|[] a IH|o a IHa b IHb]; intros i k H; cbn [atoms leaves] in *; auto.
  - destruct H.
  - apply in_app_iff in H. apply in_app_iff. destruct H; auto.
Qed.

Lemma bodies_atoms : forall t i k a, In (k, a) (bodies i t) -> In k (atoms i t).
Proof.
  induction t as [|[] a IH|o a IHa b IHb]; intros i k a' H; cbn [atoms bodies] in *.
  - destruct H.
  - eauto.
  - destruct H as [H|[]]. inversion H; subst. cbn. auto.
  - apply in_app_iff in H. apply in_app_iff. destruct H; eauto.
Qed.

Lemma bodies_size : forall t i k a, In (k, a) (bodies i t) -> i < k /\ k + fsize a <= i + fsize t.
Proof.
  induction t as [|[] a IH|o a IHa b IHb]; intros i k a' H; cbn [bodies fsize] in *.
  - destruct H.
  - apply IH in H. lia.
  - destruct H as [H|[]]. inversion H; subst. lia.
  - apply in_app_iff in H as [H|H]; [apply IHa in H|apply IHb in H]; lia.
Qed.

Lemma bodies_disjoint : forall t i k a j, In (k, a) (bodies i t) -> In j (atoms i t) ->
  k < j < k + fsize a -> False.
Proof.
  induction t as [|[] a IH|o a IHa b IHb]; intros i k a' j H1 H2 Hj; cbn [bodies atoms] in *.
  - destruct H1.
  - eauto.
  - destruct H1 as [H1|[]], H2 as [H2|[]]. inversion H1; subst. lia.
  - apply in_app_iff in H1 as [H1|H1]; apply in_app_iff in H2 as [H2|H2]; eauto.
    + apply bodies_size in H1. apply atoms_range in H2. lia.
    + apply bodies_size in H1. apply atoms_range in H2. lia.
Qed.

Lemma laid_body : forall t T p i k a, laid T p i t -> In (k, a) (bodies i t) -> exists p', laid T p' k a.
Proof.
  induction t as [|[] a IH|o a IHa b IHb]; intros T p i k a' HL H; cbn [bodies laid] in *.
  - destruct H.
  - destruct HL. eauto.
  - destruct H as [H|[]]. inversion H; subst. destruct HL. eauto.
  - destruct HL as (_ & HLa & HLb). apply in_app_iff in H as [H|H]; eauto.
Qed.

(** [on_atoms r i t]: inside [t], only atoms are reported. *)
Definition on_atoms (r : nat -> option bool) (i : nat) (t : form) : Prop :=
  forall j, i <= j < i + fsize t -> r j <> None -> In j (atoms i t).

Lemma on_atoms_un : forall r i a, on_atoms r i (FNot a) -> r i = None /\ on_atoms r (S i) a.
Proof.
  intros r i a H. split.
  - destruct (r i) eqn:E; auto. assert (In i (atoms i (FNot a))) as X.
    { apply H; [cbn; lia|congruence]. }
    cbn in X. apply atoms_range in X. lia.
  - intros j Hj Hr. specialize (H j). cbn in H. apply H; auto. lia.
Qed.

Lemma on_atoms_loop : forall r i a, on_atoms r i (FLoop a) ->
  r i = None /\ (forall j, S i < j < S i + fsize a -> r j = None).
Proof.
  intros r i a H. split.
  - destruct (r i) eqn:E; auto. assert (In i (atoms i (FLoop a))) as X.
    { apply H; [cbn; lia|congruence]. }
    cbn in X. lia.
  - intros j Hj. destruct (r j) eqn:E; auto. assert (In j (atoms i (FLoop a))) as X.
    { apply H; [cbn; lia|congruence]. }
    cbn in X. lia.
Qed.

Lemma on_atoms_bin : forall r i o a b, on_atoms r i (FBin o a b) ->
  r i = None /\ on_atoms r (S i) a /\ on_atoms r (S i + fsize a) b.
Proof.
  intros r i o a b H. split; [|split].
  - destruct (r i) eqn:E; auto. assert (In i (atoms i (FBin o a b))) as X.
    { apply H; [cbn; lia|congruence]. }
    cbn [atoms] in X. apply in_app_iff in X as [X|X]; apply atoms_range in X; lia.
  - intros j Hj Hr. specialize (H j). cbn [atoms fsize] in H.
    assert (In j (atoms (S i) a ++ atoms (S i + fsize a) b)) as X by (apply H; auto; lia).
    apply in_app_iff in X as [X|X]; auto. apply atoms_range in X. lia.
  - intros j Hj Hr. specialize (H j). cbn [atoms fsize] in H.
    assert (In j (atoms (S i) a ++ atoms (S i + fsize a) b)) as X by (apply H; auto; lia).
    apply in_app_iff in X as [X|X]; auto. apply atoms_range in X. lia.
Qed.

Lemma ov_empty : forall t r i, (forall j, i <= j < i + fsize t -> r j = None) -> ov r i t = None.
Proof.
  induction t; intros r i H; cbn [ov fsize] in *; rewrite H by lia; auto.
  - rewrite IHt; [destruct o; auto|]. intros. apply H. lia.
  - rewrite IHt1, IHt2; [destruct o; auto| |]; intros; apply H; lia.
Qed.

Lemma ov_keval : forall t r i, on_atoms r i t -> ov r i t = keval r i t.
Proof.
  induction t as [|[] a IH|o a IHa b IHb]; intros r i H.
  - cbn. now destruct (r i).
  - apply on_atoms_un in H as [E H]. cbn [ov keval]. rewrite E. cbn [k_un]. now rewrite IH.
  - apply on_atoms_loop in H as [E H]. cbn [ov keval]. rewrite E. cbn [k_un].
    destruct (r (S i)) eqn:Es.
    + now apply ov_reported.
    + apply ov_empty. intros j Hj. destruct (Nat.eq_dec j (S i)) as [->|]; auto. apply H. lia.
  - apply on_atoms_bin in H as (E & Ha & Hb). cbn [ov keval]. rewrite E.
    now rewrite IHa, IHb.
Qed.

Definition ext (r r' : nat -> option bool) : Prop := forall k b, r k = Some b -> r' k = Some b.

Lemma k_not_mono : forall a a', (forall b, a = Some b -> a' = Some b) ->
  forall b, k_not a = Some b -> k_not a' = Some b.
Proof. intros [x|] a' H b E; cbn in E; [|discriminate]. now rewrite (H x eq_refl). Qed.

Lemma k_bin_mono : forall o a a' c c',
  (forall b, a = Some b -> a' = Some b) -> (forall b, c = Some b -> c' = Some b) ->
  forall b, k_bin o a c = Some b -> k_bin o a' c' = Some b.
Proof.
  intros o [x|] a' [y|] c' H1 H2 b E; try rewrite (H1 x eq_refl); try rewrite (H2 y eq_refl);
    destruct o; auto; try destruct x; try destruct y; cbn in *; try discriminate; auto;
    try (destruct a' as [[]|]; cbn; auto; fail); destruct c' as [[]|]; cbn; auto.
Qed.

Lemma keval_mono : forall t r r' i, ext r r' -> forall b, keval r i t = Some b -> keval r' i t = Some b.
Proof.
  induction t as [|[] a IH|o a IHa c IHc]; intros r r' i H b; cbn [keval].
  - apply H.
  - apply k_not_mono. intro. now apply IH.
  - apply H.
  - apply k_bin_mono; intro; [now apply IHa|now apply IHc].
Qed.

Lemma keval_ext : forall t r r' i, (forall j, i <= j < i + fsize t -> r' j = r j) -> keval r' i t = keval r i t.
Proof.
  induction t as [|[] a IH|o a IHa c IHc]; intros r r' i H; cbn [keval fsize] in *.
  - apply H. lia.
  - rewrite (IH r); auto. intros. apply H. lia.
  - apply H. pose proof (fsize_pos a). lia.
  - rewrite (IHa r), (IHc r); auto; intros; apply H; lia.
Qed.

(** ** Skipped reports do not matter *)

Lemma on_atoms_setr : forall r i t k b, on_atoms r i t -> In k (atoms i t) -> on_atoms (setr r k b) i t.
Proof.
  intros r i t k b H Hk j Hj Hr. unfold setr in Hr. destruct (Nat.eqb_spec j k); [congruence|]. auto.
Qed.

Lemma ext_setr : forall r k b, r k = None -> ext r (setr r k b).
Proof. intros r k b H j c Hj. rewrite setr_other; auto. congruence. Qed.

Lemma INV_skip : forall t d r i k b,
  INV d r i t -> on_atoms r i t -> In k (atoms i t) -> r k = None -> st d k <> SUnknown ->
  INV d (setr r k b) i t.
Proof.
  induction t as [|o a IH|o a IHa c IHc]; intros d r i k b HI HA Hk Hr Hs.
  - cbn in Hk. destruct Hk as [<-|[]]. cbn [INV ov] in HI. rewrite Hr in HI.
    destruct HI as [(H1 & _)|(v & _ & H2 & _)]; [contradiction|discriminate].
  - pose proof (on_atoms_setr r i (FUn o a) k b HA Hk) as HA'.
    destruct o.
    + pose proof (on_atoms_un _ _ _ HA) as [Ei HAa]. cbn [atoms] in Hk.
      pose proof (atoms_range _ _ _ Hk) as Rk.
      cbn [INV] in HI. destruct HI as [(H1 & H2 & H3)|(v & H1 & H2 & H3 & _)].
      * assert (INV d (setr r k b) (S i) a) as HI' by (apply IH; auto).
        cbn [INV]. left. split; [auto|split; auto].
        cbn [ov] in H2 |- *. rewrite setr_other by lia. rewrite Ei in *.
        pose proof (INV_state _ _ _ _ H3) as E1. pose proof (INV_state _ _ _ _ HI') as E2.
        rewrite E1 in E2. destruct (ov r (S i) a) as [[]|]; try discriminate.
        destruct (ov (setr r k b) (S i) a) as [[]|]; try discriminate. reflexivity.
      * cbn [INV]. right. exists v. split; [auto|split; [|auto]].
        rewrite ov_keval in H2 |- * by auto. eapply keval_mono; [|exact H2]. now apply ext_setr.
    + exfalso. cbn [atoms] in Hk. destruct Hk as [<-|[]].
      apply on_atoms_loop in HA as [Ei HAa].
      assert (forall j, i <= j < i + fsize (FLoop a) -> r j = None) as E0.
      { intros j Hj. cbn in Hj. destruct (Nat.eq_dec j i) as [->|]; auto.
        destruct (Nat.eq_dec j (S i)) as [->|]; auto. apply HAa. lia. }
      assert (ov r i (FLoop a) = None) as E1 by (apply ov_empty; auto).
      assert (ov r (S i) a = None) as E2 by (apply ov_empty; intros; apply E0; cbn; lia).
      cbn [INV] in HI. destruct HI as [(H1 & H2 & H3)|(v & H1 & H2 & H3 & _)]; [|congruence].
      apply Hs. now apply (INV_unknown a d r (S i)).
  - pose proof (on_atoms_setr r i (FBin o a c) k b HA Hk) as HA'.
    pose proof (on_atoms_bin _ _ _ _ _ HA) as (Ei & HAa & HAc). cbn [atoms] in Hk.
    assert (INV d r (S i) a -> INV d r (S i + fsize a) c ->
            INV d (setr r k b) (S i) a /\ INV d (setr r k b) (S i + fsize a) c) as CH.
    { intros Ha Hc. apply in_app_iff in Hk as [Hk|Hk]; pose proof (atoms_range _ _ _ Hk) as Rk.
      - split; [apply IHa; auto|]. eapply INV_ext; [intros; reflexivity| |exact Hc].
        intros j Hj. apply setr_other. lia.
      - split; [|apply IHc; auto]. eapply INV_ext; [intros; reflexivity| |exact Ha].
        intros j Hj. apply setr_other. lia. }
    assert (i < k) as Rk by (apply in_app_iff in Hk as [Hk|Hk]; apply atoms_range in Hk; lia).
    cbn [INV] in HI. destruct HI as [(H1 & H2 & H3 & H4)|(v & H1 & H2 & H3 & H4)].
    + destruct (CH H3 H4) as [HI1 HI2].
      cbn [INV]. left. split; [auto|split; auto].
      cbn [ov] in H2 |- *. rewrite setr_other by lia. rewrite Ei in *.
      pose proof (INV_state _ _ _ _ H3) as E1. pose proof (INV_state _ _ _ _ HI1) as E2. rewrite E1 in E2.
      pose proof (INV_state _ _ _ _ H4) as E3. pose proof (INV_state _ _ _ _ HI2) as E4. rewrite E3 in E4.
      replace (ov (setr r k b) (S i) a) with (ov r (S i) a)
        by (destruct (ov r (S i) a) as [[]|], (ov (setr r k b) (S i) a) as [[]|]; try discriminate; reflexivity).
      replace (ov (setr r k b) (S i + fsize a) c) with (ov r (S i + fsize a) c)
        by (destruct (ov r (S i + fsize a) c) as [[]|], (ov (setr r k b) (S i + fsize a) c) as [[]|]; try discriminate; reflexivity).
      exact H2.
    + cbn [INV]. right. exists v. split; [auto|split; [|split; auto]].
      * rewrite ov_keval in H2 |- * by auto. eapply keval_mono; [|exact H2]. now apply ext_setr.
      * destruct o; auto. intros _. destruct (H4 Ei) as [X1 X2]. auto.
Qed.

(** ** [resetNode] *)

Lemma reset_spec : forall t T p i d fuel,
  laid T p i t -> length d = length T -> fsize t <= fuel ->
  exists d', resetNodeRec fuel T d i = Ok d' /\ same_out d d' i (fsize t) /\ allunk d' i (fsize t).
Proof.
  induction t as [|o a IH|o a IHa b IHb]; intros T p i d fuel HL Hd Hf;
    pose proof (laid_bound _ _ _ _ HL) as HB; cbn [fsize] in *;
    (destruct fuel as [|f]; [lia|]); cbn [resetNodeRec]; rewrite idx_st by lia; cbn [obind];
    set (d0 := upd d i SUnknown);
    (assert (length d0 = length T) as Hd0 by (unfold d0; now rewrite upd_length));
    (assert (same_out d d0 i 1) as S0 by (apply same_out_upd; lia));
    (assert (st d0 i = SUnknown) as U0 by (unfold d0; apply st_upd_same; lia)).
  - destruct HL as (l & r & E). rewrite (idx_node _ _ _ E). cbn.
    exists d0. split; [reflexivity|]. split; auto.
    intros j Hj. replace j with i by lia. auto.
  - destruct HL as (E & HL). rewrite (idx_node _ _ _ E). cbn [obind n_type n_left n_right].
    replace (hasLeft (utype o)) with true by (destruct o; reflexivity).
    replace (hasRight (utype o)) with false by (destruct o; reflexivity).
    destruct (IH T i (S i) d0 f HL Hd0) as (d1 & -> & S1 & U1); [lia|]. cbn [obind].
    exists d1. split; [reflexivity|]. split.
    + eapply same_out_trans; eapply same_out_weaken; [exact S0|lia|lia|exact S1|lia|lia].
    + intros j Hj. destruct (Nat.eq_dec j i) as [->|]; [rewrite (proj2 S1) by lia; auto|]. apply U1. lia.
  - destruct HL as (E & HLa & HLb). rewrite (idx_node _ _ _ E). cbn [obind n_type n_left n_right].
    replace (hasLeft (btype o)) with true by (destruct o; reflexivity).
    replace (hasRight (btype o)) with true by (destruct o; reflexivity).
    destruct (IHa T i (S i) d0 f HLa Hd0) as (d1 & -> & S1 & U1); [lia|]. cbn [obind].
    assert (length d1 = length T) as Hd1 by (destruct S1; congruence).
    destruct (IHb T i (S i + fsize a) d1 f HLb Hd1) as (d2 & E2 & S2 & U2); [lia|].
    exists d2. split; [exact E2|]. split.
    + eapply same_out_trans; [eapply same_out_weaken; [exact S0|lia|lia]|].
      eapply same_out_trans; [eapply same_out_weaken; [exact S1|lia|lia]|].
      eapply same_out_weaken; [exact S2|lia|lia].
    + intros j Hj. destruct (Nat.eq_dec j i) as [->|].
      { rewrite (proj2 S2), (proj2 S1) by lia. auto. }
      destruct (Nat.lt_ge_cases j (S i + fsize a)).
      * rewrite (proj2 S2) by lia. apply U1. lia.
      * apply U2. lia.
Qed.

Lemma resetNode_spec : forall t T p i d,
  laid T p i t -> length d = length T ->
  exists d', resetNode T d i = Ok d' /\ same_out d d' i (fsize t) /\ allunk d' i (fsize t).
Proof.
  intros. unfold resetNode. eapply reset_spec; eauto.
  match goal with H : laid _ _ _ _ |- _ => apply laid_bound in H end. lia.
Qed.

(** ** Loop bodies inside a tree *)

Lemma INV_empty_unk : forall t d r i, INV d r i t -> (forall j, i <= j < i + fsize t -> r j = None) ->
  allunk d i (fsize t).
Proof.
  induction t; intros d r i HI H; pose proof (ov_empty _ _ _ H) as E; cbn [INV fsize] in *;
    (destruct HI as [(H1 & _ & H2)|(v & _ & H2 & _)]; [|congruence]).
  - intros j Hj. now replace j with i by lia.
  - assert (allunk d (S i) (fsize t)) as A by (apply (IHt _ r); auto; intros; apply H; lia).
    intros j Hj. destruct (Nat.eq_dec j i) as [->|]; auto. apply A. lia.
  - destruct H2 as [H2 H3].
    assert (allunk d (S i) (fsize t1)) as A1 by (apply (IHt1 _ r); auto; intros; apply H; lia).
    assert (allunk d (S i + fsize t1) (fsize t2)) as A2 by (apply (IHt2 _ r); auto; intros; apply H; lia).
    intros j Hj. destruct (Nat.eq_dec j i) as [->|]; auto.
    destruct (Nat.lt_ge_cases j (S i + fsize t1)); [apply A1|apply A2]; lia.
Qed.

Lemma body_unk : forall t d r i k a,
  INV d r i t -> on_atoms r i t -> In (k, a) (bodies i t) -> st d k = SUnknown ->
  allunk d k (fsize a).
Proof.
  induction t as [|[] b IH|o b IHb c IHc]; intros d r i k a HI HA Hk Hs; cbn [bodies] in Hk.
  - destruct Hk.
  - pose proof (bodies_size _ _ _ _ Hk) as B. pose proof (fsize_pos a).
    apply on_atoms_un in HA as [_ HA].
    cbn [INV fsize] in HI. destruct HI as [(_ & _ & HI)|(v & _ & _ & AS & _)].
    + eapply IH; eauto.
    + exfalso. apply (AS k); auto. lia.
  - destruct Hk as [Hk|[]]. inversion Hk; subst. pose proof (fsize_pos a).
    apply on_atoms_loop in HA as [_ HA].
    cbn [INV fsize] in HI. destruct HI as [(_ & _ & HI)|(v & _ & _ & AS & _)].
    + eapply INV_empty_unk; eauto. intros j Hj. destruct (Nat.eq_dec j (S i)) as [->|]; [|apply HA; lia].
      apply (INV_unknown _ _ _ _ HI) in Hs. eapply ov_none; eauto.
    + exfalso. apply (AS (S i)); auto. lia.
  - apply on_atoms_bin in HA as (_ & HA1 & HA2). pose proof (fsize_pos a).
    assert (i < k /\ k + fsize a <= i + fsize (FBin o b c)) as B.
    { apply (bodies_size (FBin o b c)). exact Hk. }
    cbn [INV] in HI. destruct HI as [(_ & _ & HI1 & HI2)|(v & _ & _ & AS & _)].
    + apply in_app_iff in Hk as [Hk|Hk]; [eapply IHb|eapply IHc]; eauto.
    + exfalso. apply (AS k); auto. lia.
Qed.

(** ** The loop driver *)


(** Result of folding [loopStep] over outcomes, stopping when told to. *)
Fixpoint foldLoop (m : lmode) (state : bool) (l : list bool) : bool :=
  match l with
  | [] => state
  | x :: r => let '(s, leave) := loopStep m state x in if leave then s else foldLoop m s r
  end.

Lemma foldLoop_any : forall l, foldLoop LAny false l = existsb (fun b => b) l.
Proof. induction l as [|[] l IH]; cbn; auto. Qed.
Lemma foldLoop_every : forall l, foldLoop LEvery true l = forallb (fun b => b) l.
Proof. induction l as [|[] l IH]; cbn; auto. Qed.
Lemma foldLoop_ae : forall l s, foldLoop LAnyEvery s l = (s || existsb (fun b => b) l) && forallb (fun b => b) l.
Proof.
  induction l as [|[] l IH]; intro s; cbn.
  - now rewrite orb_false_r, andb_true_r.
  - rewrite IH. cbn. now rewrite orb_true_r.
  - now rewrite andb_false_r.
Qed.

Lemma foldLoop_quant : forall m l, foldLoop m (loopInit m) l = quant m l.
Proof.
  intros [] l; cbn [loopInit quant].
  - apply foldLoop_any.
  - apply foldLoop_every.
  - apply foldLoop_ae.
Qed.

(** The states the iterations see: body open, everything else untouched. *)
Lemma runIters_spec : forall its vals T p k a m state d,
  laid T p k a -> length d = length T ->
  Forall2 (fun it v => forall d1, length d1 = length T -> allunk d1 k (fsize a) ->
     exists d2, it d1 = Ok d2 /\ same_out d1 d2 k (fsize a) /\ isTrueS (st d2 k) = v) its vals ->
  exists d', runIters T k m its state d = Ok (foldLoop m state vals, d') /\ same_out d d' k (fsize a).
Proof.
  induction its as [|it its IH]; intros vals T p k a m state d HL Hd HF; inversion HF as [|x v xs vs Hit Hits]; subst.
  - exists d. cbn. split; [reflexivity|apply same_out_refl].
  - cbn [runIters foldLoop].
    destruct (resetNode_spec a T p k d HL Hd) as (d1 & -> & S1 & U1). cbn [obind].
    assert (length d1 = length T) as Hd1 by (destruct S1; congruence).
    destruct (Hit d1 Hd1 U1) as (d2 & -> & S2 & Hv). cbn [obind].
    assert (length d2 = length T) as Hd2 by (destruct S2; congruence).
    pose proof (laid_bound _ _ _ _ HL) as HB. pose proof (fsize_pos a).
    unfold isTrue. rewrite idx_st by lia. cbn [obind]. rewrite Hv.
    destruct (loopStep m state v) as [s leave].
    assert (same_out d d2 k (fsize a)) as S12 by (eapply same_out_trans; eauto).
    destruct leave.
    + exists d2. auto.
    + destruct (IH vs T p k a m s d2 HL Hd2 Hits) as (d' & -> & S').
      exists d'. split; auto. eapply same_out_trans; eauto.
Qed.

Lemma runLoop_spec : forall its vals t T p i k a m d r,
  laid T p i t -> length d = length T -> INV d r i t -> on_atoms r i t ->
  In (k, a) (bodies i t) -> st d k = SUnknown ->
  Forall2 (fun it v => forall d1, length d1 = length T -> allunk d1 k (fsize a) ->
     exists d2, it d1 = Ok d2 /\ same_out d1 d2 k (fsize a) /\ isTrueS (st d2 k) = v) its vals ->
  exists d', runLoop T i d k m its = Ok d'
    /\ INV d' (setr r k (quant m vals)) i t /\ same_out d d' i (fsize t)
    /\ (forall j, st d j <> SUnknown -> st d' j = st d j).
Proof.
  intros its vals t T p i k a m d r HL Hd HI HA Hk Hs HF.
  pose proof (bodies_size _ _ _ _ Hk) as [B1 B2]. pose proof (fsize_pos a) as Pa.
  pose proof (laid_bound _ _ _ _ HL) as HB.
  destruct (laid_body _ _ _ _ _ _ HL Hk) as (p' & HLk).
  pose proof (body_unk _ _ _ _ _ _ HI HA Hk Hs) as BU.
  unfold runLoop, isResolved. rewrite idx_st by lia. cbn [obind]. rewrite Hs. cbn [isUnknown negb].
  destruct (runIters_spec its vals T p' k a m (loopInit m) d HLk Hd HF) as (d1 & -> & S1). cbn [obind].
  assert (length d1 = length T) as Hd1 by (destruct S1; congruence).
  destruct (resetNode_spec a T p' k d1 HLk Hd1) as (d2 & -> & S2 & U2). cbn [obind].
  assert (forall j, st d2 j = st d j) as EQ.
  { intro j. destruct (Nat.lt_ge_cases j k) as [H|H]; [|destruct (Nat.lt_ge_cases j (k + fsize a))].
    - rewrite (proj2 S2), (proj2 S1) by lia. reflexivity.
    - rewrite U2, BU by lia. reflexivity.
    - rewrite (proj2 S2), (proj2 S1) by lia. reflexivity. }
  assert (length d2 = length T) as Hd2 by (destruct S2; congruence).
  rewrite foldLoop_quant.
  destruct (mark_spec t T p i d2 r k (quant m vals) i HL Hd2) as (d' & E & HI' & SO & KP & _).
  - eapply INV_ext; [intros; apply EQ|intros; reflexivity|exact HI].
  - lia.
  - rewrite EQ. exact Hs.
  - auto.
  - intros j Hj. lia.
  - exists d'. split; [exact E|]. split; [exact HI'|]. split.
    + split; [destruct SO; congruence|]. intros j Hj. rewrite (proj2 SO) by auto. apply EQ.
    + intros j Hj. rewrite KP; rewrite EQ; auto.
Qed.

(** ** Sessions *)

(** Reports already known, then new ones, the first winning. *)
Definition merge_r (r : nat -> option bool) (l : list (nat * bool)) : nat -> option bool :=
  fun j => match r j with Some b => Some b | None => first_report l j end.

Lemma INV_eq : forall t d r r' i, (forall j, r' j = r j) -> INV d r i t -> INV d r' i t.
Proof. intros. eapply INV_ext; [intros; reflexivity|intros; apply H|exact H0]. Qed.

Definition add1 (r : nat -> option bool) (k : nat) (b : bool) : nat -> option bool :=
  match r k with Some _ => r | None => setr r k b end.

Lemma merge_r_cons : forall r k b l j, merge_r r ((k, b) :: l) j = merge_r (add1 r k b) l j.
Proof.
  intros r k b l j. unfold merge_r, add1. cbn [first_report].
  destruct (r k) eqn:Ek.
  - destruct (r j) eqn:Ej; auto. destruct (Nat.eqb_spec k j); auto. congruence.
  - unfold setr. destruct (Nat.eqb_spec j k) as [->|Hne].
    + rewrite Ek, Nat.eqb_refl. reflexivity.
    + destruct (r j); auto. destruct (Nat.eqb_spec k j); auto. congruence.
Qed.

Lemma on_atoms_add1 : forall r i t k b, on_atoms r i t -> In k (atoms i t) -> on_atoms (add1 r k b) i t.
Proof. intros. unfold add1. destruct (r k); auto. now apply on_atoms_setr. Qed.

(** One report of a leaf. *)
Lemma tryMark_spec : forall t T p i d r k b,
  laid T p i t -> length d = length T -> INV d r i t -> on_atoms r i t -> In k (atoms i t) ->
  exists d', tryMark T i d k b = Ok d'
    /\ INV d' (add1 r k b) i t /\ same_out d d' i (fsize t)
    /\ (forall j, st d j <> SUnknown -> st d' j = st d j) /\ st d' k <> SUnknown.
Proof.
  intros t T p i d r k b HL Hd HI HA Hk.
  pose proof (atoms_range _ _ _ Hk) as Rk. pose proof (laid_bound _ _ _ _ HL) as HB.
  unfold tryMark, isResolved. rewrite idx_st by lia. cbn [obind].
  destruct (st d k) eqn:Es; cbn [isUnknown negb];
    try (exists d; split; [reflexivity|]; split; [|split; [apply same_out_refl|split; [auto|congruence]]];
         unfold add1; destruct (r k) eqn:Er; auto; apply INV_skip; auto; congruence).
  destruct (mark_spec t T p i d r k b i HL Hd HI) as (d' & E & HI' & SO & KP & Hk'); auto; try lia.
  exists d'. split; [exact E|]. split; [|split; [auto|split; [auto|]]].
  - unfold add1. destruct (r k) eqn:Er; auto. exfalso.
    (* a reported atom is settled *)
    clear - HI Hk Er Es HA. revert d r i HI HA Hk Er Es.
    induction t as [|[] a IH|o a IHa c IHc]; intros d r i HI HA Hk Er Es; cbn [atoms] in Hk.
    + destruct Hk as [<-|[]]. cbn [INV ov] in HI. rewrite Er in HI.
      destruct HI as [(_ & H & _)|(v & H & _)]; [discriminate|]. rewrite Es in H. now destruct v.
    + pose proof (atoms_range _ _ _ Hk). apply on_atoms_un in HA as [_ HA].
      cbn [INV fsize] in HI. destruct HI as [(_ & _ & HI)|(v & _ & _ & AS & _)]; [eauto|].
      apply (AS k); auto. lia.
    + destruct Hk as [<-|[]]. pose proof (fsize_pos a).
      cbn [INV fsize] in HI. destruct HI as [(_ & _ & HI)|(v & _ & _ & AS & _)].
      * apply (INV_unknown _ _ _ _ HI) in Es. rewrite (ov_reported _ _ _ _ Er) in Es. discriminate.
      * apply (AS (S i)); auto. lia.
    + apply on_atoms_bin in HA as (_ & HA1 & HA2).
      assert (i < k < i + fsize (FBin o a c)) as R.
      { cbn. apply in_app_iff in Hk as [Hk|Hk]; apply atoms_range in Hk; lia. }
      cbn [INV] in HI. destruct HI as [(_ & _ & HI1 & HI2)|(v & _ & _ & AS & _)].
      * apply in_app_iff in Hk as [Hk|Hk]; eauto.
      * apply (AS k); auto. lia.
  - rewrite Hk'. apply sbool_set.
Qed.

Definition evs_ok (l : list ev) : Prop :=
  forall t T p i d r, laid T p i t -> length d = length T -> INV d r i t -> on_atoms r i t ->
  Forall (wf_ev i t) l ->
  exists d', runEvs T i l d = Ok d'
    /\ INV d' (merge_r r (map den l)) i t /\ on_atoms (merge_r r (map den l)) i t
    /\ same_out d d' i (fsize t)
    /\ (forall j, st d j <> SUnknown -> st d' j = st d j).

Definition ev_ok (e : ev) : Prop :=
  forall t T p i d r, laid T p i t -> length d = length T -> INV d r i t -> on_atoms r i t ->
  wf_ev i t e ->
  exists d', runEv T i e d = Ok d'
    /\ INV d' (add1 r (fst (den e)) (snd (den e))) i t
    /\ same_out d d' i (fsize t)
    /\ (forall j, st d j <> SUnknown -> st d' j = st d j).

Lemma wf_den_atom : forall i t e, wf_ev i t e -> In (fst (den e)) (atoms i t).
Proof.
  intros i t e H. destruct H; cbn.
  - now apply leaves_atoms.
  - eapply bodies_atoms; eauto.
Qed.

Lemma evs_of_ev : forall l, Forall ev_ok l -> evs_ok l.
Proof.
  induction 1 as [|e l He Hl IH]; intros t T p i d r HL Hd HI HA HW.
  - exists d. cbn. split; [reflexivity|]. split; [|split; [|split; [apply same_out_refl|auto]]].
    + eapply INV_eq; [|exact HI]. intro j. unfold merge_r. cbn. now destruct (r j).
    + intros j Hj Hr. apply HA; auto. unfold merge_r in Hr. cbn in Hr. now destruct (r j).
  - inversion HW as [|? ? W1 W2]; subst.
    destruct (He t T p i d r HL Hd HI HA W1) as (d1 & E1 & HI1 & SO1 & KP1).
    assert (length d1 = length T) as Hd1 by (destruct SO1; congruence).
    pose proof (on_atoms_add1 r i t _ (snd (den e)) HA (wf_den_atom _ _ _ W1)) as HA1.
    destruct (IH t T p i d1 _ HL Hd1 HI1 HA1 W2) as (d2 & E2 & HI2 & HA2 & SO2 & KP2).
    exists d2. cbn [runEvs]. rewrite E1. cbn [obind map]. split; [exact E2|].
    assert (forall j, merge_r r (den e :: map den l) j
                      = merge_r (add1 r (fst (den e)) (snd (den e))) (map den l) j) as EQ.
    { intro j. rewrite (surjective_pairing (den e)). apply merge_r_cons. }
    split; [|split; [|split]].
    + eapply INV_eq; [|exact HI2]. exact EQ.
    + intros j Hj Hr. apply HA2; auto. rewrite <- EQ. exact Hr.
    + eapply same_out_trans; eauto.
    + intros j Hj. rewrite KP2; rewrite KP1; auto.
Qed.

Lemma ev_all_ok : forall e, ev_ok e.
Proof.
  induction e as [k b|k a m its IH] using ev_ind'; intros t T p i d r HL Hd HI HA HW.
  - inversion HW as [? ? ? ? Hk|]; subst.
    destruct (tryMark_spec t T p i d r k b HL Hd HI HA (leaves_atoms _ _ _ Hk)) as (d' & E & H1 & H2 & H3 & _).
    exists d'. cbn. auto.
  - inversion HW as [|? ? ? ? ? ? Hk Hits]; subst. rewrite runEv_loop. cbn [den fst snd].
    pose proof (bodies_size _ _ _ _ Hk) as [B1 B2]. pose proof (fsize_pos a) as Pa.
    pose proof (laid_bound _ _ _ _ HL) as HB.
    destruct (laid_body _ _ _ _ _ _ HL Hk) as (p' & HLk).
    set (vals := map (fun it => known_true (keval (first_report (map den it)) k a)) its).
    destruct (isUnknown (st d k)) eqn:Es.
    + assert (st d k = SUnknown) as Hs by (destruct (st d k); auto; discriminate).
      destruct (runLoop_spec (map (fun it => runEvs T k it) its) vals t T p i k a m d r HL Hd HI HA Hk Hs)
        as (d' & E & H1 & H2 & H3).
      { unfold vals. clear - IH Hits HLk. induction its as [|it its IHi]; cbn; constructor.
        - inversion IH as [|? ? IH1 _]; subst. inversion Hits as [|? ? W1 _]; subst.
          intros d1 Hd1 U1. apply evs_of_ev in IH1.
          destruct (IH1 a T p' k d1 (fun _ => None) HLk Hd1) as (d2 & E2 & HI2 & HA2 & SO2 & _); auto.
          + apply INV_fresh; auto.
          + intros j Hj Hr. congruence.
          + exists d2. split; [exact E2|]. split; [exact SO2|].
            rewrite (INV_state _ _ _ _ HI2), ov_keval by auto.
            change (merge_r (fun _ => None) (map den it)) with (fun j => first_report (map den it) j).
            rewrite (keval_ext a (first_report (map den it))) by reflexivity.
            destruct (keval (first_report (map den it)) k a) as [[]|]; reflexivity.
        - inversion IH; inversion Hits; subst. auto. }
      exists d'. split; [exact E|]. split; [|auto].
      unfold add1. destruct (r k) eqn:Er; auto. exfalso.
      destruct (tryMark_spec t T p i d r k true HL Hd HI HA (bodies_atoms _ _ _ _ Hk)) as (_ & _ & _ & _ & _ & _).
      pose proof (body_unk _ _ _ _ _ _ HI HA Hk Hs) as BU. clear E.
      (* a reported atom is settled *)
      clear - HI Hk Er Hs HA. revert d r i HI HA Hk Er Hs.
      induction t as [|[] c IH|o c IHc e IHe]; intros d r i HI HA Hk Er Hs; cbn [bodies] in Hk.
      * destruct Hk.
      * pose proof (bodies_size _ _ _ _ Hk). pose proof (fsize_pos a). apply on_atoms_un in HA as [_ HA].
        cbn [INV fsize] in HI. destruct HI as [(_ & _ & HI)|(v & _ & _ & AS & _)]; [eauto|].
        apply (AS k); auto. lia.
      * destruct Hk as [Hk|[]]. inversion Hk; subst. pose proof (fsize_pos a).
        cbn [INV fsize] in HI. destruct HI as [(_ & _ & HI)|(v & _ & _ & AS & _)].
        -- apply (INV_unknown _ _ _ _ HI) in Hs. rewrite (ov_reported _ _ _ _ Er) in Hs. discriminate.
        -- apply (AS (S i)); auto. lia.
      * assert (i < k /\ k + fsize a <= i + fsize (FBin o c e)) as B by (apply (bodies_size (FBin o c e)); exact Hk).
        pose proof (fsize_pos a). apply on_atoms_bin in HA as (_ & HA1 & HA2).
        cbn [INV] in HI. destruct HI as [(_ & _ & HI1 & HI2)|(v & _ & _ & AS & _)].
        -- apply in_app_iff in Hk as [Hk|Hk]; eauto.
        -- apply (AS k); auto. lia.
    + unfold runLoop, isResolved. rewrite idx_st by lia. cbn [obind]. rewrite Es. cbn [negb].
      exists d. split; [reflexivity|]. split; [|split; [apply same_out_refl|auto]].
      unfold add1. destruct (r k) eqn:Er; auto. apply INV_skip; auto.
      * eapply bodies_atoms; eauto.
      * intro X. rewrite X in Es. discriminate.
Qed.

Lemma session_ok : forall l, evs_ok l.
Proof. intro l. apply evs_of_ev. apply Forall_forall. intros. apply ev_all_ok. Qed.

(** From a fresh tree. *)
Lemma session_fresh : forall t T l,
  laid T 0 0 t -> length T = fsize t -> Forall (wf_ev 0 t) l ->
  exists d', runEvs T 0 l (newState T) = Ok d'
    /\ INV d' (first_report (map den l)) 0 t /\ on_atoms (first_report (map den l)) 0 t
    /\ length d' = length T.
Proof.
  intros t T l HL HT HW.
  assert (length (newState T) = length T) as Hd by (unfold newState; apply repeat_length).
  assert (forall j, st (newState T) j = SUnknown) as U.
  { intro j. unfold st, newState. destruct (nth_in_or_default j (repeat SUnknown (length T)) SUnknown) as [H|H]; auto.
    now apply repeat_spec in H. }
  destruct (session_ok l t T 0 0 (newState T) (fun _ => None) HL Hd) as (d' & E & HI & HA & SO & _); auto.
  - apply INV_fresh; auto. intros j Hj. apply U.
  - intros j Hj Hr. congruence.
  - exists d'. split; [exact E|]. split; [exact HI|]. split; [exact HA|]. destruct SO. congruence.
Qed.

(** ** Finalisation *)

Lemma INV_children_un : forall d r i o a, INV d r i (FUn o a) -> st d i = SUnknown -> INV d r (S i) a.
Proof.
  intros d r i o a H Hs. cbn [INV] in H. destruct H as [(_ & _ & H)|(v & H & _)]; auto.
  rewrite Hs in H. now destruct v.
Qed.
Lemma INV_children_bin : forall d r i o a b, INV d r i (FBin o a b) -> st d i = SUnknown ->
  INV d r (S i) a /\ INV d r (S i + fsize a) b.
Proof.
  intros d r i o a b H Hs. cbn [INV] in H. destruct H as [(_ & _ & H)|(v & H & _)]; auto.
  rewrite Hs in H. now destruct v.
Qed.

(** All positions of leaves, including those inside loop bodies. *)
Fixpoint lpos (i : nat) (t : form) : list nat :=
  match t with
  | FLeaf => [i]
  | FUn _ a => lpos (S i) a
  | FBin _ a b => lpos (S i) a ++ lpos (S i + fsize a) b
  end.

Lemma lpos_range : forall t i k, In k (lpos i t) -> i <= k < i + fsize t.
Proof.
  induction t as [|o a IH|o a IHa b IHb]; intros i k H; cbn [lpos fsize] in *.
  - destruct H as [<-|[]]. lia.
  - apply IH in H. lia.
  - apply in_app_iff in H as [H|H]; [apply IHa in H|apply IHb in H]; lia.
Qed.

(** An open node all of whose later nodes are settled is a leaf. *)
Lemma open_is_leaf : forall t d r i k, INV d r i t -> (forall j, k < j < i + fsize t -> st d j <> SUnknown) ->
  i <= k < i + fsize t -> st d k = SUnknown -> In k (lpos i t).
Proof.
  induction t as [|o a IH|o a IHa b IHb]; intros d r i k HI HS Hk Hu; cbn [fsize lpos] in *.
  - cbn. lia.
  - cbn [INV] in HI. destruct HI as [(H1 & H2 & HI)|(v & _ & _ & AS & _)]; [|exfalso; apply (AS k); auto].
    pose proof (fsize_pos a).
    destruct (Nat.eq_dec k i) as [->|].
    + exfalso. pose proof (ov_none _ _ _ H2) as Ei. cbn [ov] in H2. rewrite Ei in H2.
      apply k_un_none in H2. apply (INV_unknown _ _ _ _ HI) in H2. apply (HS (S i)); auto. lia.
    + eapply IH; eauto; [|lia]. intros j Hj. apply HS. lia.
  - cbn [INV] in HI. destruct HI as [(H1 & H2 & HIa & HIb)|(v & _ & _ & AS & _)]; [|exfalso; apply (AS k); auto].
    pose proof (fsize_pos a). pose proof (fsize_pos b). apply in_app_iff.
    destruct (Nat.eq_dec k i) as [->|].
    + exfalso. pose proof (ov_none _ _ _ H2) as Ei. cbn [ov] in H2. rewrite Ei in H2.
      destruct (ov r (S i) a) as [x|] eqn:E1.
      * destruct (ov r (S i + fsize a) b) as [y|] eqn:E2.
        -- destruct o, x, y; discriminate.
        -- apply (INV_unknown _ _ _ _ HIb) in E2. apply (HS (S i + fsize a)); auto. lia.
      * apply (INV_unknown _ _ _ _ HIa) in E1. apply (HS (S i)); auto. lia.
    + destruct (Nat.lt_ge_cases k (S i + fsize a)).
      * left. eapply IHa; eauto; [|lia]. intros j Hj. apply HS. lia.
      * right. eapply IHb; eauto; [|lia]. intros j Hj. apply HS. lia.
Qed.

(** [closes r r' i t]: [r'] is [r] with some unreported leaves set to false. *)
Definition closes (r r' : nat -> option bool) (i : nat) (t : form) : Prop :=
  forall j, i <= j < i + fsize t ->
    r' j = r j \/ (r j = None /\ r' j = Some false /\ In j (lpos i t)).

Lemma closes_setr : forall r r' i t k, closes r r' i t -> In k (lpos i t) -> r' k = None ->
  closes r (setr r' k false) i t.
Proof.
  intros r r' i t k H Hk Hr j Hj. unfold setr. destruct (Nat.eqb_spec j k) as [->|]; auto.
  right. destruct (H k Hj) as [E|(E1 & E2 & _)]; [|congruence]. repeat split; auto. congruence.
Qed.

Lemma resolveLoop_spec : forall n t T d r r',
  laid T 0 0 t -> length T = fsize t -> length d = length T -> INV d r' 0 t ->
  closes r r' 0 t -> n <= length T ->
  (forall j, n <= j < length T -> st d j <> SUnknown) ->
  exists d' r'', resolveLoop n T 0 d = Ok d' /\ INV d' r'' 0 t /\ closes r r'' 0 t /\
    (st d 0 <> SUnknown \/ 0 < n -> st d' 0 <> SUnknown) /\ length d' = length T
    /\ (forall j, st d j <> SUnknown -> st d' j = st d j).
Proof.
  induction n as [|n IH]; intros t T d r r' HL HT Hd HI HC Hn HS.
  - exists d, r'. cbn. split; [reflexivity|]. repeat split; auto.
    intros [H|H]; auto. lia.
  - cbn [resolveLoop]. pose proof (fsize_pos t) as HP.
    rewrite idx_st by lia. cbn [obind].
    assert (exists d1 r1, (if isUnknown (st d n) then mark T 0 d n false else Ok d) = Ok d1
      /\ INV d1 r1 0 t /\ closes r r1 0 t /\ length d1 = length T /\ st d1 n <> SUnknown
      /\ (forall j, st d j <> SUnknown -> st d1 j = st d j)) as (d1 & r1 & -> & HI1 & HC1 & Hd1 & Hn1 & KP1).
    { destruct (st d n) eqn:Es; cbn [isUnknown];
        try (exists d, r'; split; [reflexivity|]; repeat split; auto; congruence).
      assert (In n (lpos 0 t)) as Hl.
      { eapply open_is_leaf; eauto; [|lia]. intros j Hj. apply HS. lia. }
      destruct (mark_spec t T 0 0 d r' n false 0 HL Hd HI) as (d1 & E & HI1 & SO & KP & Hk); auto; try lia.
      exists d1, (setr r' n false). split; [exact E|]. split; [exact HI1|]. split; [|split; [|split]].
      - apply closes_setr; auto.
        (* an open leaf is unreported *)
        clear - HI Hl Es. revert HI Hl Es. generalize 0 as i. induction t as [|o a IH|o a IHa b IHb];
          intros i HI Hl Es; cbn [lpos] in Hl.
        + destruct Hl as [<-|[]]. apply (INV_unknown FLeaf) in HI. apply HI in Es. eapply (ov_none FLeaf); eauto.
        + pose proof (lpos_range _ _ _ Hl). cbn [INV fsize] in HI.
          destruct HI as [(_ & _ & HI)|(v & _ & _ & AS & _)]; [eauto|]. exfalso. apply (AS n); auto. lia.
        + assert (i < n < i + fsize (FBin o a b)) as R.
          { cbn. apply in_app_iff in Hl as [Hl|Hl]; apply lpos_range in Hl; lia. }
          cbn [INV] in HI. destruct HI as [(_ & _ & HI1 & HI2)|(v & _ & _ & AS & _)].
          * apply in_app_iff in Hl as [Hl|Hl]; eauto.
          * exfalso. apply (AS n); auto. lia.
      - destruct SO. congruence.
      - rewrite Hk. discriminate.
      - auto. }
    cbn [obind]. rewrite idx_st by lia. cbn [obind].
    destruct (st d1 0) eqn:E0; cbn [isUnknown negb];
      try (exists d1, r1; split; [reflexivity|]; repeat split; auto; congruence).
    destruct (IH t T d1 r r1 HL HT Hd1 HI1 HC1) as (d' & r'' & -> & A1 & A2 & A3 & A4 & A5); [lia| |].
    { intros j Hj. destruct (Nat.eq_dec j n) as [->|]; auto. rewrite KP1; apply HS; lia. }
    exists d', r''. split; [reflexivity|]. repeat split; auto.
    + intros _. apply A3. destruct n; [|right; lia]. left. congruence.
    + intros j Hj. rewrite A5; rewrite KP1; auto.
Qed.

Lemma feval_ext : forall t r r' i, (forall j, i <= j < i + fsize t -> r' j = r j) -> feval r' i t = feval r i t.
Proof.
  induction t as [|[] a IH|o a IHa c IHc]; intros r r' i H; cbn [feval fsize] in *.
  - rewrite H; auto; lia.
  - rewrite (IH r); auto. intros. apply H. lia.
  - rewrite H; auto. pose proof (fsize_pos a). lia.
  - rewrite (IHa r), (IHc r); auto; intros; apply H; lia.
Qed.

Lemma k_bin_value : forall o x y v p q, k_bin o x y = Some v ->
  (forall a, x = Some a -> a = p) -> (forall b, y = Some b -> b = q) -> v = b_bin o p q.
Proof.
  intros o x y v p q H Hx Hy. destruct x as [x|], y as [y|];
    try rewrite <- (Hx _ eq_refl); try rewrite <- (Hy _ eq_refl);
    destruct o; try destruct x; try destruct y; cbn in *; try congruence;
    inversion H; subst; try destruct p; try destruct q; reflexivity.
Qed.

(** Any value reached by closing is the final value. *)
Lemma closes_feval : forall t r r' i v, on_atoms r i t -> closes r r' i t ->
  ov r' i t = Some v -> v = feval r i t.
Proof.
  induction t as [|o a IH|o a IHa b IHb]; intros r r' i v HA HC Hv; cbn [ov] in Hv.
  - destruct (r' i) as [x|] eqn:E; [|discriminate]. inversion Hv; subst. cbn [feval].
    destruct (HC i ltac:(cbn; lia)) as [E1|(E1 & E2 & _)].
    + rewrite <- E1, E. reflexivity.
    + rewrite E1. congruence.
  - assert (forall j, S i <= j < S i + fsize a -> r' j = r j \/ (r j = None /\ r' j = Some false /\ In j (lpos (S i) a))) as HCa.
    { intros j Hj. apply HC. cbn. lia. }
    assert (r i = None /\ r' i = None) as [Ei Ei'].
    { assert (r i = None) as E by (destruct o; [apply on_atoms_un in HA|apply on_atoms_loop in HA]; exact (proj1 HA)).
      split; auto. destruct (HC i ltac:(cbn; lia)) as [E1|(_ & _ & X)]; [congruence|].
      cbn in X. apply lpos_range in X. lia. }
    rewrite Ei' in Hv. destruct o; cbn [k_un] in Hv; cbn [feval].
    + apply on_atoms_un in HA as [_ HA].
      destruct (ov r' (S i) a) as [x|] eqn:E; [|discriminate]. cbn in Hv. inversion Hv; subst. f_equal. eauto.
    + apply on_atoms_loop in HA as [_ HA]. destruct (r (S i)) as [x|] eqn:Es.
      * assert (r' (S i) = Some x) as Es'.
        { destruct (HCa (S i)) as [E|(E & _)]; [pose proof (fsize_pos a); lia|congruence|congruence]. }
        rewrite (ov_reported _ _ _ _ Es') in Hv. congruence.
      * assert (forall j, S i <= j < S i + fsize a -> r j = None) as Em.
        { intros j Hj. destruct (Nat.eq_dec j (S i)) as [->|]; auto. apply HA. lia. }
        transitivity (feval r (S i) a).
        -- eapply IH; [|exact HCa|exact Hv]. intros j Hj Hr. rewrite Em in Hr by auto. congruence.
        -- apply feval_ext. auto.
  - apply on_atoms_bin in HA as (Ei & HA1 & HA2).
    assert (r' i = None) as Ei'.
    { destruct (HC i ltac:(cbn; lia)) as [E1|(_ & _ & X)]; [congruence|].
      cbn in X. apply in_app_iff in X as [X|X]; apply lpos_range in X; lia. }
    assert (closes r r' (S i) a /\ closes r r' (S i + fsize a) b) as [HC1 HC2].
    { split; intros j Hj; (destruct (HC j ltac:(cbn; lia)) as [E1|(E1 & E2 & X)]; [auto|]);
      right; repeat split; auto; cbn [lpos] in X; apply in_app_iff in X as [X|X]; auto; apply lpos_range in X; lia. }
    rewrite Ei' in Hv. cbn [feval].
    apply (k_bin_value _ _ _ _ _ _ Hv); intros x Ex; [eapply IHa|eapply IHb]; eauto.
Qed.

(** Reading the state of any node on the spine of merged expressions. *)
Lemma resolveAll_spec : forall t T d r,
  laid T 0 0 t -> length T = fsize t -> length d = length T -> INV d r 0 t -> on_atoms r 0 t ->
  exists d' r', resolveAll T 0 d = Ok d' /\ INV d' r' 0 t /\ closes r r' 0 t
    /\ st d' 0 = sbool (feval r 0 t) /\ length d' = length T
    /\ (forall j, st d j <> SUnknown -> st d' j = st d j).
Proof.
  intros t T d r HL HT Hd HI HA. pose proof (fsize_pos t).
  unfold resolveAll, isResolved. rewrite idx_st by lia. cbn [obind].
  assert (closes r r 0 t) as HC0 by (intros j Hj; auto).
  assert (exists d' r', (if negb (isUnknown (st d 0)) then Ok d else resolveLoop (length d) T 0 d) = Ok d'
    /\ INV d' r' 0 t /\ closes r r' 0 t /\ st d' 0 <> SUnknown /\ length d' = length T
    /\ (forall j, st d j <> SUnknown -> st d' j = st d j)) as (d' & r' & E & H1 & H2 & H3 & H4 & H5).
  { destruct (st d 0) eqn:E0; cbn [isUnknown negb];
      try (exists d, r; split; [reflexivity|]; repeat split; auto; congruence).
    destruct (resolveLoop_spec (length d) t T d r r HL HT Hd HI HC0) as (d' & r' & E & A1 & A2 & A3 & A4 & A5).
    - lia.
    - intros. lia.
    - exists d', r'. repeat split; auto. apply A3. lia. }
  exists d', r'. split; [exact E|]. split; [auto|]. split; [auto|]. split; [|auto].
  rewrite (INV_state _ _ _ _ H1). destruct (ov r' 0 t) as [v|] eqn:Ev.
  - now rewrite (closes_feval t r r' 0 v HA H2 Ev).
  - exfalso. apply H3. now apply (INV_unknown _ _ _ _ H1).
Qed.

(** ** Kleene evaluation against two-valued evaluation *)

Lemma keval_beval : forall t r v i x,
  (forall k b, In k (atoms i t) -> r k = Some b -> v k = b) ->
  keval r i t = Some x -> beval v i t = x.
Proof.
  induction t as [|[] a IH|o a IHa c IHc]; intros r v i x H Hx; cbn [keval beval atoms] in *.
  - apply H; [cbn; auto|exact Hx].
  - destruct (keval r (S i) a) as [y|] eqn:E; [|discriminate]. inversion Hx; subst. f_equal. eapply IH; eauto.
  - apply H; [cbn; auto|exact Hx].
  - symmetry. apply (k_bin_value _ _ _ _ _ _ Hx); intros y Ey; symmetry; [eapply IHa|eapply IHc]; eauto;
      intros; apply H; auto; apply in_app_iff; auto.
Qed.

Lemma keval_total : forall t r i, (forall k, In k (atoms i t) -> r k <> None) -> keval r i t <> None.
Proof.
  induction t as [|[] a IH|o a IHa c IHc]; intros r i H; cbn [keval atoms] in *.
  - apply H. cbn. auto.
  - specialize (IH r (S i) H). destruct (keval r (S i) a); [discriminate|congruence].
  - apply H. cbn. auto.
  - assert (keval r (S i) a <> None) as A by (apply IHa; intros; apply H, in_app_iff; auto).
    assert (keval r (S i + fsize a) c <> None) as B by (apply IHc; intros; apply H, in_app_iff; auto).
    destruct (keval r (S i) a) as [[]|]; try congruence;
    destruct (keval r (S i + fsize a) c) as [[]|]; try congruence; destruct o; discriminate.
Qed.

Lemma feval_keval : forall t r i x, keval r i t = Some x -> feval r i t = x.
Proof.
  induction t as [|[] a IH|o a IHa c IHc]; intros r i x Hx; cbn [keval feval] in *.
  - now rewrite Hx.
  - destruct (keval r (S i) a) as [y|] eqn:E; [|discriminate]. inversion Hx; subst. f_equal. eauto.
  - now rewrite Hx.
  - symmetry. apply (k_bin_value _ _ _ _ _ _ Hx); intros y Ey; symmetry; [eapply IHa|eapply IHc]; eauto.
Qed.
