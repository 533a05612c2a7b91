(** On trees of well-formed documents the interpreter never crashes. *)
From Verif Require Import Base MTokenizer SJson MLit PLit MFastVal MMath SFormula SEvents SMerge MBinTree MSession MExpr MTransform
  MMatcher MTree PBinTree PMerge PTrace PTree PMatch.
From Coq Require Import List NArith ZArith Arith Lia Bool.
Import ListNotations.
Open Scope nat_scope.

(** The outcome is a result satisfying [P], unless the fuel was too little. *)
Definition sure {A} (r : outcome A) (P : A -> Prop) : Prop :=
  match r with Ok a => P a | OutOfFuel => True | _ => False end.
Lemma sure_bind : forall A B (r : outcome A) (k : A -> outcome B) P Q,
  sure r P -> (forall a, P a -> sure (k a) Q) -> sure (obind r k) Q.
Proof. intros A B [a| | |] k P Q H1 H2; cbn in *; auto. Qed.
Lemma sure_mono : forall A (r : outcome A) (P Q : A -> Prop), sure r P -> (forall a, P a -> Q a) -> sure r Q.
Proof. intros A [a| | |] P Q H1 H2; cbn in *; auto. Qed.

(** ** The tree *)

Definition child (T : list node) (i c : nat) : Prop :=
  exists n, nth_error T i = Some n /\ ((hasLeft (n_type n) = true /\ c = n_left n) \/ (hasRight (n_type n) = true /\ c = n_right n)).
(** Parent and child links agree; children come later. *)
Definition treeCons (T : list node) : Prop :=
  0 < length T
  /\ (forall i c, child T i c -> i < c < length T /\ exists n, nth_error T c = Some n /\ n_parent n = i)
  /\ (forall c n, nth_error T c = Some n -> 0 < c -> n_parent n < c /\ child T (n_parent n) c).

Lemma laid_at : forall f T p i j, laid T p i f -> i <= j < i + fsize f -> exists n, nth_error T j = Some n
  /\ (if Nat.eqb j i then n_parent n = p else n_parent n < j /\ child T (n_parent n) j)
  /\ (forall c, child T j c -> j < c < i + fsize f /\ exists m, nth_error T c = Some m /\ n_parent m = j).
Proof.
  induction f as [|u a IH|b a IHa c IHc]; intros T p i j HL Hj; cbn [fsize] in *.
  - replace j with i in * by lia. destruct HL as (l & r & E). exists (Node NLeaf p l r). split; auto. rewrite Nat.eqb_refl. split; auto.
    intros c (n & En & Hc). rewrite E in En. injection En as <-. destruct Hc as [[Hc _]|[Hc _]]; discriminate.
  - cbn [laid] in HL. destruct HL as [E HL]. pose proof (fsize_pos a). destruct (Nat.eq_dec j i) as [->|Hne].
    + eexists. split; [exact E|]. rewrite Nat.eqb_refl. split; auto. intros c (n & En & Hc). rewrite E in En. injection En as <-.
      cbn in Hc. destruct (laid_node _ _ _ _ HL) as (m & Em & Hm). destruct u; destruct Hc as [[_ ->]|[Hc _]]; try discriminate; (split; [lia|eauto]).
    + destruct (IH T i (S i) j HL) as (n & En & Hp & Hc); [lia|]. exists n. split; auto. split.
      * replace (Nat.eqb j i) with false by (symmetry; apply Nat.eqb_neq; lia). destruct (Nat.eqb_spec j (S i)) as [->|Hn2]; [|exact Hp].
        rewrite Hp. split; [lia|]. eexists. split; [exact E|]. left. destruct u; auto.
      * intros x Hx. destruct (Hc x Hx). split; [lia|auto].
  - cbn [laid] in HL. destruct HL as (E & HLa & HLb). pose proof (fsize_pos a). pose proof (fsize_pos c).
    destruct (Nat.eq_dec j i) as [->|Hne].
    + eexists. split; [exact E|]. rewrite Nat.eqb_refl. split; auto. intros x (n & En & Hc). rewrite E in En. injection En as <-.
      cbn [n_type n_left n_right] in Hc. destruct Hc as [[_ ->]|[_ ->]].
      * destruct (laid_node _ _ _ _ HLa) as (m & Em & Hm). split; [lia|eauto].
      * destruct (laid_node _ _ _ _ HLb) as (m & Em & Hm). split; [lia|eauto].
    + replace (Nat.eqb j i) with false by (symmetry; apply Nat.eqb_neq; lia).
      destruct (Nat.lt_ge_cases j (S i + fsize a)) as [Hlt|Hge].
      * destruct (IHa T i (S i) j HLa) as (n & En & Hp & Hc); [lia|]. exists n. split; auto. split.
        -- destruct (Nat.eqb_spec j (S i)) as [->|Hn2]; [|exact Hp].
           rewrite Hp. split; [lia|]. eexists. split; [exact E|]. left. destruct b; auto.
        -- intros x Hx. destruct (Hc x Hx). split; [lia|auto].
      * destruct (IHc T i (S i + fsize a) j HLb) as (n & En & Hp & Hc); [lia|]. exists n. split; auto. split.
        -- destruct (Nat.eqb_spec j (S i + fsize a)) as [->|Hn2]; [|exact Hp].
           rewrite Hp. split; [lia|]. eexists. split; [exact E|]. right. destruct b; auto.
        -- intros x Hx. destruct (Hc x Hx). split; [lia|auto].
Qed.
Lemma lay_cons : forall f, treeCons (lay 0 0 f).
Proof.
  intro f. pose proof (lay_laid f) as HL. pose proof (lay_length f 0 0) as HN. pose proof (fsize_pos f).
  assert (forall j, j < length (lay 0 0 f) -> 0 <= j < 0 + fsize f) as HJ by (intros; lia).
  split; [lia|]. split.
  - intros i c Hc. assert (i < length (lay 0 0 f)) as Hi by (destruct Hc as (n & En & _); apply nth_error_Some; congruence).
    destruct (laid_at f _ _ _ i HL (HJ _ Hi)) as (n & _ & _ & Hx). destruct (Hx c Hc). split; [lia|auto].
  - intros c n En Hc. assert (c < length (lay 0 0 f)) as Hi by (apply nth_error_Some; congruence).
    destruct (laid_at f _ _ _ c HL (HJ _ Hi)) as (n' & En' & Hp & _). rewrite En in En'. injection En' as <-.
    replace (Nat.eqb c 0) with false in Hp by (symmetry; apply Nat.eqb_neq; lia). exact Hp.
Qed.

(** [anc T c b]: going up from [b] one meets [c]. *)
Inductive anc (T : list node) (c : nat) : nat -> Prop :=
| anc_refl : c < length T -> anc T c c
| anc_up : forall b n, nth_error T b = Some n -> 0 < b -> anc T c (n_parent n) -> anc T c b.

Section Safe.
  Variable T : list node.
  Hypothesis HT : treeCons T.

  Lemma anc_le : forall c b, anc T c b -> c <= b < length T.
  Proof.
    intros c b H. induction H as [|b n E Hb H IH]; [lia|]. destruct (proj2 (proj2 HT) _ _ E Hb) as [Hlt _].
    split; [lia|]. apply nth_error_Some. congruence.
  Qed.
  Lemma anc_trans : forall a b c, anc T a b -> anc T b c -> anc T a c.
  Proof. intros a b c H1 H2. induction H2 as [|c n E Hc H IH]; auto. eapply anc_up; eauto. Qed.
  Lemma anc_child : forall c b i, anc T c b -> child T b i -> anc T c i.
  Proof.
    intros c b i H1 H2. destruct (proj1 (proj2 HT) _ _ H2) as [Hi (n & En & Hn)]. eapply anc_up; eauto; [lia|]. now rewrite Hn.
  Qed.
  Lemma anc_zero : forall b, b < length T -> anc T 0 b.
  Proof.
    induction b as [b IH] using lt_wf_ind. intro Hb. destruct b as [|b]; [constructor; lia|].
    destruct (nth_error T (S b)) as [n|] eqn:E; [|apply nth_error_None in E; lia].
    destruct (proj2 (proj2 HT) _ _ E) as [Hlt _]; [lia|]. eapply anc_up; eauto; [lia|]. apply IH; lia.
  Qed.
  Lemma anc_down : forall c b, anc T c b -> c <> b -> exists i, child T c i /\ anc T i b.
  Proof.
    intros c b H. induction H as [|b n E Hb H IH]; intro Hne; [contradiction|].
    destruct (proj2 (proj2 HT) _ _ E Hb) as [Hlt Hch].
    destruct (Nat.eq_dec c (n_parent n)) as [->|Hn].
    - exists b. split; auto. constructor. apply nth_error_Some. congruence.
    - destruct (IH Hn) as (i & H1 & H2). exists i. split; auto. eapply anc_up; eauto.
  Qed.

  Definition set (d : sdata) (i : nat) : Prop := st d i <> SUnknown.
  Lemma set_dec : forall d i, {set d i} + {st d i = SUnknown}.
  Proof. intros d i. unfold set. destruct (st d i); auto; left; discriminate. Qed.
  Lemma set_known : forall d i, set d i -> isUnknown (st d i) = false.
  Proof. unfold set. intros d i H. destruct (st d i); auto. contradiction. Qed.
  Definition closedAt (d : sdata) (i : nat) : Prop := set d i -> forall c, child T i c -> set d c.
  Definition closed (d : sdata) : Prop := length d = length T /\ forall i, closedAt d i.

  Lemma closed_up : forall d c b, closed d -> anc T c b -> st d b = SUnknown -> st d c = SUnknown.
  Proof.
    intros d c b [_ HC] H. induction H as [|b n E Hb H IH]; intro Hu; auto. apply IH.
    destruct (set_dec d (n_parent n)) as [Hs|Hs]; auto. exfalso.
    destruct (proj2 (proj2 HT) _ _ E Hb) as [_ Hch]. exact (HC _ Hs _ Hch Hu).
  Qed.

  (** Nothing changes outside the part below [c]. *)
  Definition frame (c : nat) (d d' : sdata) : Prop := length d' = length d /\ forall j, ~ anc T c j -> st d' j = st d j.
  Lemma frame_refl : forall c d, frame c d d.
  Proof. split; auto. Qed.
  Lemma frame_trans : forall c d1 d2 d3, frame c d1 d2 -> frame c d2 d3 -> frame c d1 d3.
  Proof. intros c d1 d2 d3 [L1 F1] [L2 F2]. split; [congruence|]. intros j Hj. rewrite F2, F1; auto. Qed.
  Lemma frame_sub : forall c k d d', anc T c k -> frame k d d' -> frame c d d'.
  Proof. intros c k d d' Hk [L F]. split; auto. intros j Hj. apply F. intro X. apply Hj. eapply anc_trans; eauto. Qed.
  Lemma frame_upd : forall c d x, c < length T -> frame c d (upd d c x).
  Proof.
    intros c d x Hc. split; [apply upd_length|]. intros j Hj. apply st_upd_other. intro X. subst. apply Hj. now constructor.
  Qed.

  Definition grows (d d' : sdata) : Prop := forall j, set d j -> st d' j = st d j.
  Lemma grows_set : forall d d' j, grows d d' -> set d j -> set d' j.
  Proof. intros d d' j HG Hs. unfold set. rewrite HG; auto. Qed.
  Lemma grows_trans : forall a b c, grows a b -> grows b c -> grows a c.
  Proof. intros a b c H1 H2 j Hs. rewrite H2; [auto|]. eapply grows_set; eauto. Qed.
  Lemma grows_upd : forall d i x, st d i = SUnknown -> i < length d -> grows d (upd d i x).
  Proof. intros d i x Hu Hi j Hs. apply st_upd_other. intro X. subst. contradiction. Qed.

  Lemma idx_data : forall d i, i < length d -> idx d i = Ok (st d i).
  Proof. intros. now apply idx_st. Qed.
  Lemma idx_tree : forall i, i < length T -> exists n, idx T i = Ok n /\ nth_error T i = Some n.
  Proof. intros i Hi. unfold idx. destruct (nth_error T i) as [n|] eqn:E; [eauto|]. apply nth_error_None in E. lia. Qed.

  Lemma resolve_sure : forall f d i (S : nat -> Prop), length d = length T -> i < length T -> set d i ->
    (forall j, ~ S j -> j <> i -> closedAt d j) ->
    sure (resolveRecursive f T d i) (fun d' => grows d d' /\ frame i d d' /\ st d' i = st d i
       /\ forall j, ~ S j -> closedAt d' j).
  Proof.
    induction f as [|f IH]; intros d i S0 Hl Hi Hs HC; cbn [resolveRecursive sure]; auto.
    destruct (idx_tree i Hi) as (n & En & Em). rewrite En. cbn [obind].
    (* one side *)
    assert (forall d0 c, length d0 = length T -> child T i c -> (forall j, ~ S0 j -> j <> i -> closedAt d0 j) ->
      sure (do s <- idx d0 c; if isUnknown s then resolveRecursive f T (upd d0 c SResolved) c else Ok d0)
        (fun d' => grows d0 d' /\ frame i d0 d' /\ st d' i = st d0 i /\ set d' c /\ forall j, ~ S0 j -> j <> i -> closedAt d' j)) as Side.
    { intros d0 c Hl0 Hc HC0. destruct (proj1 (proj2 HT) _ _ Hc) as [Hlt _]. rewrite idx_data by lia. cbn [obind].
      destruct (set_dec d0 c) as [Hsc|Hu].
      - rewrite (set_known _ _ Hsc).
        cbn [sure]. split; [intros j _; auto|]. split; [apply frame_refl|]. auto.
      - rewrite Hu. cbn [isUnknown].
        assert (anc T i c) as Hanc by (eapply anc_child; eauto; constructor; lia).
        assert (forall x, st (upd d0 c x) c = x) as Hst by (intros; apply st_upd_same; lia).
        eapply sure_mono; [apply (IH (upd d0 c SResolved) c (fun j => S0 j \/ j = i))|].
        + rewrite upd_length. auto.
        + lia.
        + unfold set. rewrite Hst. discriminate.
        + intros j Hj Hjc Hsj x Hx. assert (set d0 j) as Hsj0 by (unfold set in *; rewrite st_upd_other in Hsj by auto; exact Hsj).
          eapply grows_set; [apply grows_upd; [exact Hu|lia]|]. exact (HC0 j (fun X => Hj (or_introl X)) (fun X => Hj (or_intror X)) Hsj0 x Hx).
        + intros d' (G & F & E & C). split; [eapply grows_trans; [|exact G]; apply grows_upd; [exact Hu|lia]|].
          split; [eapply frame_trans; [|eapply frame_sub; eauto]; eapply frame_sub; [exact Hanc|apply frame_upd; lia]|].
          split; [|split].
          * rewrite (proj2 F); [apply st_upd_other; lia|]. intro X. apply anc_le in X. lia.
          * unfold set. rewrite E, Hst. discriminate.
          * intros j Hj Hji. apply C. intros [X|X]; auto. }
    eapply sure_bind with (P := fun d1 => length d1 = length T /\ grows d d1 /\ frame i d d1 /\ st d1 i = st d i
        /\ (hasLeft (n_type n) = true -> set d1 (n_left n)) /\ forall j, ~ S0 j -> j <> i -> closedAt d1 j).
    { destruct (hasLeft (n_type n)) eqn:EL.
      - eapply sure_mono; [apply Side; auto; exists n; auto|]. intros d1 (G & F & E & X & C).
        split; [destruct F; congruence|]. auto.
      - cbn [sure]. split; auto. split; [intros j _; auto|]. split; [apply frame_refl|]. split; auto. split; [discriminate|auto]. }
    intros d1 (L1 & G1 & F1 & E1 & X1 & C1).
    assert (forall d2, grows d1 d2 -> frame i d1 d2 -> st d2 i = st d1 i -> (hasRight (n_type n) = true -> set d2 (n_right n)) ->
      (forall j, ~ S0 j -> j <> i -> closedAt d2 j) -> grows d d2 /\ frame i d d2 /\ st d2 i = st d i /\ forall j, ~ S0 j -> closedAt d2 j) as Fin.
    { intros d2 G2 F2 E2 X2 C2. split; [eapply grows_trans; eauto|]. split; [eapply frame_trans; eauto|]. split; [congruence|].
      intros j Hj. destruct (Nat.eq_dec j i) as [->|Hne]; [|auto]. intros _ c (n' & En' & Hc). rewrite Em in En'. injection En' as <-.
      destruct Hc as [[Hb ->]|[Hb ->]]; auto. eapply grows_set; eauto. }
    destruct (hasRight (n_type n)) eqn:ER.
    - eapply sure_mono; [apply Side; auto; exists n; auto|]. intros d2 (G & F & E & X & C). apply Fin; auto.
    - cbn [sure]. apply Fin; auto; [intros j _; auto|apply frame_refl|discriminate].
  Qed.

  (** Strictly above [c] everything is open. *)
  Definition above (c : nat) (d : sdata) : Prop := forall j, anc T j c -> j <> c -> st d j = SUnknown.
  Lemma above_frame : forall c d d', above c d -> frame c d d' -> above c d'.
  Proof.
    intros c d d' HA [_ HF] j H1 H2. rewrite HF; auto. intro X. apply anc_le in X, H1. lia.
  Qed.

  Lemma markNode_sure : forall f c d b v, closed d -> anc T c b -> st d b = SUnknown ->
    sure (markNode f T c d b v) (fun d' => closed d' /\ frame c d d').
  Proof.
    induction f as [|f IH]; intros c d b v [Hl HC] Hcb Hu; cbn [markNode sure]; auto.
    pose proof (anc_le _ _ Hcb) as Hb. rewrite idx_data by lia. cbn [obind]. rewrite Hu. cbn [isUnknown negb].
    assert (set (upd d b (sbool v)) b) as Hs by (unfold set; rewrite st_upd_same by lia; destruct v; discriminate).
    eapply sure_bind.
    { apply (resolve_sure _ (upd d b (sbool v)) b (fun _ => False)); auto; [now rewrite upd_length|lia|].
      intros j _ Hj Hsj x Hx. assert (set d j) as Hsj0 by (unfold set in *; rewrite st_upd_other in Hsj by auto; exact Hsj).
      eapply grows_set; [apply grows_upd; [exact Hu|lia]|]. exact (HC j Hsj0 x Hx). }
    intros d1 (G & F & E & C). assert (frame b d d1) as F1 by (eapply frame_trans; [apply frame_upd; lia|exact F]).
    assert (closed d1) as C1 by (split; [destruct F1; congruence|auto]).
    assert (frame c d d1) as F1' by (eapply frame_sub; eauto).
    destruct (Nat.eqb_spec b 0) as [->|Hb0]; cbn [orb sure]; auto. destruct (Nat.eqb_spec b c) as [->|Hbc]; cbn [sure]; auto.
    inversion Hcb as [|? n En Hb1 Hp]; subst; [contradiction|]. unfold idx at 1. rewrite En. cbn [obind].
    set (p := n_parent n) in *. destruct (proj2 (proj2 HT) _ _ En Hb1) as [Hlt Hch]. fold p in Hlt, Hch.
    assert (st d1 p = SUnknown) as Hup.
    { rewrite (proj2 F1); [|intro X; apply anc_le in X; lia].
      apply (closed_up d p b); [split; auto| |auto]. eapply anc_up; eauto. constructor. fold p. lia. }
    assert (sure (checkNode T d1 p) (fun _ => True)) as CK.
    { unfold checkNode. assert (p < length T) as Hp1 by lia. destruct (idx_tree p Hp1) as (m & Em & Em'). rewrite Em. cbn [obind].
      assert (hasLeft (n_type m) = true -> n_left m < length d1) as HL.
      { intro X. assert (child T p (n_left m)) as Y by (exists m; auto). apply (proj1 (proj2 HT)) in Y. destruct C1. lia. }
      assert (hasRight (n_type m) = true -> n_right m < length d1) as HR.
      { intro X. assert (child T p (n_right m)) as Y by (exists m; auto). apply (proj1 (proj2 HT)) in Y. destruct C1. lia. }
      destruct Hch as (m' & Em2 & Hc2). rewrite Em' in Em2. injection Em2 as <-.
      destruct (n_type m); cbn [hasLeft hasRight] in *; try (rewrite !idx_data by auto; cbn [obind sure]; exact I).
      destruct Hc2 as [[X _]|[X _]]; discriminate. }
    eapply sure_bind; [exact CK|]. intros [w|] _; cbn [sure]; auto.
    eapply sure_mono; [apply (IH c d1 p w C1 Hp Hup)|]. intros d2 [C2 F2]. split; auto. eapply frame_trans; eauto.
  Qed.
  Lemma mark_sure : forall c d b v, closed d -> anc T c b -> st d b = SUnknown ->
    sure (mark T c d b v) (fun d' => closed d' /\ frame c d d').
  Proof. intros. now apply markNode_sure. Qed.

  Lemma resetRec_sure : forall f d i, length d = length T -> i < length T ->
    sure (resetNodeRec f T d i) (fun d' => length d' = length T /\ forall j, (anc T i j -> st d' j = SUnknown) /\ (~ anc T i j -> st d' j = st d j)).
  Proof.
    induction f as [|f IH]; intros d i Hl Hi; cbn [resetNodeRec sure]; auto. rewrite idx_data by lia. cbn [obind].
    destruct (idx_tree i Hi) as (n & En & Em). rewrite En. cbn [obind].
    assert (forall j, anc T i j -> j = i \/ (hasLeft (n_type n) = true /\ anc T (n_left n) j) \/ (hasRight (n_type n) = true /\ anc T (n_right n) j)) as Spl.
    { intros j Hj. destruct (Nat.eq_dec i j) as [->|Hne]; auto. right. destruct (anc_down _ _ Hj Hne) as (x & (n' & En' & Hc) & Hx).
      rewrite Em in En'. injection En' as <-. destruct Hc as [[H1 ->]|[H1 ->]]; auto. }
    assert (forall x, child T i x -> i < x < length T /\ forall j, anc T x j -> anc T i j) as Hch.
    { intros x Hx. destruct (proj1 (proj2 HT) _ _ Hx) as [Hlt _]. split; auto. intros j Hj. eapply anc_trans; [|exact Hj]. eapply anc_child; eauto. now constructor. }
    assert (forall x j, anc T x j \/ ~ anc T x j) as Dec.
    { intros x j. revert x. induction j as [j IHj] using lt_wf_ind. intro x. destruct (Nat.eq_dec x j) as [->|Hne].
      - destruct (lt_dec j (length T)); [left; now constructor|right; intro X; apply anc_le in X; lia].
      - destruct (nth_error T j) as [m|] eqn:Ej; [|right; intro X; inversion X; subst; [lia|congruence]].
        destruct j as [|j]; [right; intro X; inversion X; subst; lia|].
        destruct (proj2 (proj2 HT) _ _ Ej) as [Hlt _]; [lia|]. destruct (IHj _ Hlt x) as [Y|Y].
        + left. eapply anc_up; eauto. lia.
        + right. intro X. inversion X as [|? m' Em' _ Z]; subst; [contradiction|]. rewrite Ej in Em'. injection Em' as <-. contradiction. }
    set (d0 := upd d i SUnknown).
    assert (length d0 = length T) as Hl0 by (unfold d0; rewrite upd_length; auto).
    assert (st d0 i = SUnknown) as Hi0 by (unfold d0; apply st_upd_same; lia).
    assert (forall j, j <> i -> st d0 j = st d j) as Ho0 by (intros; unfold d0; apply st_upd_other; auto).
    eapply sure_bind with (P := fun d1 => length d1 = length T /\ forall j, (hasLeft (n_type n) = true -> anc T (n_left n) j -> st d1 j = SUnknown)
       /\ (~ (hasLeft (n_type n) = true /\ anc T (n_left n) j) -> st d1 j = st d0 j)).
    { destruct (hasLeft (n_type n)) eqn:EL.
      - eapply sure_mono; [apply IH; auto; apply (Hch (n_left n)); exists n; auto|]. cbv beta. intros d1 [L1 P1]. split; auto.
        intro j. split; [intros _; apply P1|]. intro X. apply P1. intro Y. apply X. auto.
      - cbn [sure]. split; auto. intro j. split; [discriminate|auto]. }
    intros d1 [L1 P1].
    assert (forall d2, length d2 = length T -> (forall j, (hasRight (n_type n) = true -> anc T (n_right n) j -> st d2 j = SUnknown)
       /\ (~ (hasRight (n_type n) = true /\ anc T (n_right n) j) -> st d2 j = st d1 j)) ->
       length d2 = length T /\ forall j, (anc T i j -> st d2 j = SUnknown) /\ (~ anc T i j -> st d2 j = st d j)) as Fin.
    { intros d2 L2 P2. split; auto. intro j. destruct (P1 j) as [A1 B1], (P2 j) as [A2 B2]. split.
      - intro Hj. destruct (hasRight (n_type n)) eqn:ER.
        + destruct (Dec (n_right n) j) as [Y|Y]; [apply A2; auto|]. rewrite B2 by tauto. destruct (Spl j Hj) as [->|[[H1 H2]|[_ H2]]]; [|auto|contradiction].
          rewrite B1; auto. intros [HL X]. apply anc_le in X. assert (child T i (n_left n)) as Y2 by (exists n; auto). apply Hch in Y2. lia.
        + rewrite B2 by (intros [X _]; discriminate). destruct (Spl j Hj) as [->|[[H1 H2]|[X _]]]; [|auto|discriminate].
          rewrite B1; auto. intros [HL X]. apply anc_le in X. assert (child T i (n_left n)) as Y2 by (exists n; auto). apply Hch in Y2. lia.
      - intro Hj. rewrite B2, B1; [apply Ho0; intro X; subst; apply Hj; now constructor| |].
        + intros [X Y]. apply Hj. apply (Hch (n_left n)); auto. exists n; auto.
        + intros [X Y]. apply Hj. apply (Hch (n_right n)); auto. exists n; auto. }
    destruct (hasRight (n_type n)) eqn:ER.
    - eapply sure_mono; [apply IH; auto; apply (Hch (n_right n)); exists n; auto|]. cbv beta. intros d2 [L2 P2]. apply Fin; auto.
      intro j. split; [intros _; apply P2|]. intro X. apply P2. intro Y. apply X. auto.
    - cbn [sure]. apply Fin; auto. intro j. split; [discriminate|auto].
  Qed.
  (** Resetting a part below which everything above is open. *)
  Lemma reset_sure : forall d k, closed d -> k < length T -> above k d ->
    sure (resetNode T d k) (fun d' => closed d' /\ frame k d d' /\ st d' k = SUnknown).
  Proof.
    intros d k [Hl HC] Hk HA. eapply sure_mono; [now apply resetRec_sure|]. cbv beta. intros d' [L P].
    assert (frame k d d') as F by (split; [congruence|]; intros j Hj; now apply P).
    split; [|split; auto; apply P; now constructor]. split; auto. intros i Hs c Hc.
    destruct (proj1 (proj2 HT) _ _ Hc) as [Hlt (m & Em & Hm)].
    assert (~ anc T k i) as Hi by (intro X; apply Hs; now apply P).
    assert (set d i) as Hs0 by (unfold set in *; rewrite (proj2 (P i)) in Hs; auto).
    pose proof (HC i Hs0 c Hc) as Hsc. unfold set. rewrite (proj2 (P c)); auto. intro X.
    inversion X as [|? m' Em' Hc0 Y]; subst.
    - apply Hs0. apply HA; [|lia]. eapply anc_up; eauto; [lia|]. constructor. lia.
    - rewrite Em in Em'. injection Em' as <-. contradiction.
  Qed.
End Safe.

(** ** The interpreter *)
Section Run.
  Variable o : oracles.
  Variable H : list execnode.
  Variable T : list node.
  Variable root : cst.
  (** Number of slots; the loop bucket (or 0) each node belongs to. *)
  Variable ns : nat.
  Variable lab : nat -> nat.

  Definition slotsIn (op : opnode) : Prop := forall s, In s (opSlots op) -> 1 <= s <= ns.
  Definition opGood (onNode : bool) (c : nat) (op : opnode) : Prop := anc T c (op_bucket op) /\ opSafe o onNode op /\ slotsIn op.
  Definition loopGood (c : nat) (l : loopnode) : Prop :=
    lp_node l < length H /\ lab (lp_node l) = lp_bucket l /\ anc T c (lp_bucket l) /\ lp_bucket l <> c.
  Record nodeGood (c : nat) (x : execnode) : Prop := {
    ng_elems : Forall (fun kc => snd kc < length H /\ lab (snd kc) = c) (x_elems x);
    ng_store : x_store x <= ns;
    ng_ops : Forall (opGood true c) (x_ops x);
    ng_loops : Forall (fun l => lp_target l = None /\ loopGood c l) (x_loops x);
    ng_after : forall af, x_after x = Some af -> Forall (opGood false c) (af_ops af)
      /\ Forall (fun l => (exists i, lp_target l = Some (DSlot (S i)) /\ i < ns) /\ loopGood c l) (af_loops af)
  }.
  Hypothesis HT : treeCons T.
  Hypothesis HH : forall n x, nth_error H n = Some x -> nodeGood (lab n) x.
  Hypothesis HR : wf_cst root.

  Definition slotOk (w : option cst) : Prop := match w with Some v => wf_cst v | None => True end.
  Record Inv (c : nat) (s : tst) : Prop := {
    in_stall : ts_stall s = c;
    in_closed : closed T (ts_data s);
    in_above : above T c (ts_data s);
    in_slots : length (ts_slots s) = ns;
    in_vals : Forall slotOk (ts_slots s);
    in_c : c < length T
  }.
  Definition Post (c : nat) (s s' : tst) : Prop :=
    Inv c s' /\ frame T c (ts_data s) (ts_data s') /\ (set (ts_data s) 0 -> set (ts_data s') 0).
  Definition PostO (c : nat) (s : tst) (r : tst * bool) : Prop := Post c s (fst r) /\ (snd r = true -> set (ts_data (fst r)) 0).
  Lemma post_refl : forall c s, Inv c s -> Post c s s.
  Proof. intros c s HI. split; [auto|]. split; [apply frame_refl|auto]. Qed.
  Lemma post_trans : forall c s1 s2 s3, Post c s1 s2 -> Post c s2 s3 -> Post c s1 s3.
  Proof. intros c s1 s2 s3 (_ & F1 & R1) (I2 & F2 & R2). split; auto. split; [eapply frame_trans; eauto|auto]. Qed.
  Lemma postO_trans : forall c s1 s2 r, Post c s1 s2 -> PostO c s2 r -> PostO c s1 r.
  Proof. intros c s1 s2 r H1 [H2 H3]. split; auto. eapply post_trans; eauto. Qed.

  Lemma isRes : forall d i, closed T d -> i < length T -> isResolved d i = Ok (negb (isUnknown (st d i))).
  Proof. intros d i [Hl _] Hi. unfold isResolved. rewrite idx_st by lia. reflexivity. Qed.
  Lemma res_set : forall d i, negb (isUnknown (st d i)) = true <-> set d i.
  Proof. unfold set. intros d i. destruct (st d i); cbn; split; intro X; try discriminate; auto; contradiction. Qed.
  Lemma res_unk : forall d i, negb (isUnknown (st d i)) = false -> st d i = SUnknown.
  Proof. intros d i. destruct (st d i); cbn; intro X; try discriminate; auto. Qed.
  Lemma root0 : 0 < length T.
  Proof. exact (proj1 HT). Qed.

  Lemma val_ok : forall v, wf_cst v -> exists x, valOf o v = Ok x.
  Proof. intros [t lx|es w|ms w] Hw; cbn [valOf]; eauto. apply lit_total. apply Hw. Qed.
  Lemma slot_ok : forall sl k, length sl = ns -> Forall slotOk sl -> 1 <= k <= ns -> exists x, slotVal o root sl k = Ok x.
  Proof.
    intros sl k Hl HF Hk. destruct k as [|i]; [lia|]. cbn [slotVal]. unfold idx. destruct (nth_error sl i) as [w|] eqn:E; [|apply nth_error_None in E; lia].
    cbn [obind]. apply nth_error_In in E. rewrite Forall_forall in HF. specialize (HF _ E). destruct w as [v|]; [now apply val_ok|].
    destruct root; eauto. now apply val_ok.
  Qed.

  Lemma setData_inv : forall c s d, Inv c s -> closed T d -> frame T c (ts_data s) d -> Inv c (tSetData s d).
  Proof. intros c s d [] HC HF. constructor; auto. cbn. eapply above_frame; eauto. Qed.

  Lemma op_sure : forall b c op lit s, opGood b c op -> (if b then lit <> None else lit = None) -> Inv c s ->
    sure (tMatchOp o T root op lit s) (fun s' => Post c s s').
  Proof.
    intros b c op lit s (Ha & Hs & Hsl) Hlit HI. unfold tMatchOp. pose proof (anc_le T HT _ _ Ha) as Hb.
    rewrite isRes by (try apply HI; lia). cbn [obind]. destruct (negb (isUnknown (st (ts_data s) (op_bucket op)))) eqn:E.
    - cbn [sure]. now apply post_refl.
    - apply res_unk in E. destruct (Hs (slotVal o root (ts_slots s)) lit Hlit) as (r & cl & ->).
      { intros k Hk. apply slot_ok; try apply HI. now apply Hsl. }
      cbn [obind]. rewrite (in_stall _ _ HI). eapply sure_bind; [apply mark_sure; eauto; apply HI|].
      intros d [HC HF]. assert (Post c s (tSetData s d)) as HP.
      { split; [now apply setData_inv|]. split; [exact HF|]. intro Hs0. exfalso. apply Hs0.
        eapply (closed_up T HT); [apply HI| |exact E]. apply anc_zero; auto; lia. }
      cbn [sure]. destruct cl; auto. destruct HP as (HP & HF' & HR'). split; [|auto]. destruct HP. constructor; auto.
  Qed.
  Lemma ops_sure : forall b c ops lit s, Forall (opGood b c) ops -> (if b then lit <> None else lit = None) -> Inv c s ->
    sure (tRunOps o T root ops lit s) (PostO c s).
  Proof.
    intros b c ops lit s HF Hlit. revert s. induction HF as [|op ops Hop HF IH]; intros s HI; cbn [tRunOps].
    - split; [now apply post_refl|discriminate].
    - eapply sure_bind; [eapply op_sure; eauto|]. intros sa HP. rewrite isRes; [|apply HP|apply root0]. cbn [obind].
      destruct (negb (isUnknown (st (ts_data sa) 0))) eqn:E.
      + cbn [sure]. split; auto. intros _. now apply res_set.
      + eapply sure_mono; [apply IH; apply HP|]. intros r Hr. eapply postO_trans; eauto.
  Qed.

  Definition itemOk (kv : outcome bytes * cst) : Prop := (exists k, fst kv = Ok k) /\ wf_cst (snd kv).
  Lemma items_ok : forall v, wf_cst v -> Forall itemOk (items v).
  Proof.
    intros [t lx|es w|ms w] Hw; cbn [items].
    - constructor.
    - apply wf_arr in Hw as [_ Hw]. generalize 0. induction Hw as [|e es He HF IH]; intro i; cbn; constructor; auto.
      split; [cbn; eauto|]. apply He.
    - apply wf_obj in Hw as [_ Hw]. induction Hw as [|e es He HF IH]; cbn; constructor; auto.
      split; cbn [fst snd]; [|apply He]. apply key_total. apply He.
  Qed.

  Definition PExec (f : nat) : Prop := forall v n s, wf_cst v -> n < length H -> Inv (lab n) s -> sure (tExec o H T root f v n s) (PostO (lab n) s).
  Definition PLoops (f : nat) : Prop := forall c ls es s, Forall wf_elt es -> Forall (fun l => lp_target l = None /\ loopGood c l) ls -> Inv c s ->
    sure (tLoops o H T root f ls es s) (PostO c s).
  Definition POA (f : nat) : Prop := forall c its x first s, Forall itemOk its -> nodeGood c x -> Inv c s ->
    sure (tOA o H T root f its x first s) (fun r => PostO c s (fst (fst r), snd r)).
  Definition PLoop (f : nat) : Prop := forall c l es s, Forall wf_elt es -> loopGood c l -> Inv c s ->
    sure (tLoop o H T root f l es s) (fun s' => Post c s s').
  Definition PIters (f : nat) : Prop := forall c l es b s, Forall wf_elt es -> loopGood c l -> Inv (lp_bucket l) s ->
    sure (tIters o H T root f l es b s) (fun r => Inv (lp_bucket l) (fst r) /\ frame T (lp_bucket l) (ts_data s) (ts_data (fst r))).
  Definition PAfter (f : nat) : Prop := forall c x af s, nodeGood c x -> x_after x = Some af -> Inv c s ->
    sure (tAfter o H T root f af s) (PostO c s).
  Definition PALoops (f : nat) : Prop := forall c ls s,
    Forall (fun l => (exists i, lp_target l = Some (DSlot (S i)) /\ i < ns) /\ loopGood c l) ls -> Inv c s ->
    sure (tAfterLoops o H T root f ls s) (PostO c s).

  Lemma loops_safe : forall f, PLoop f -> PLoops f -> PLoops (S f).
  Proof.
    intros f HL HLs c ls es s He HF HI. cbn [tLoops]. destruct HF as [|l ls [Et Hl] HF].
    - split; [now apply post_refl|discriminate].
    - rewrite Et. eapply sure_bind; [apply (HL c); auto|]. intros sa HP. rewrite isRes; [|apply HP|apply root0]. cbn [obind].
      destruct (negb (isUnknown (st (ts_data sa) 0))) eqn:E.
      + cbn [sure]. split; auto. intros _. now apply res_set.
      + eapply sure_mono; [apply (HLs c); auto; apply HP|]. intros r Hr. eapply postO_trans; eauto.
  Qed.
  Lemma aloops_safe : forall f, PLoop f -> PALoops f -> PALoops (S f).
  Proof.
    intros f HL HLs c ls s HF HI. cbn [tAfterLoops]. destruct HF as [|l ls [(i & Et & Hi) Hl] HF].
    - split; [now apply post_refl|discriminate].
    - rewrite Et. unfold idx at 1. destruct (nth_error (ts_slots s) i) as [w|] eqn:Ew; [|apply nth_error_None in Ew; rewrite (in_slots _ _ HI) in Ew; lia].
      cbn [obind]. apply nth_error_In in Ew. pose proof (in_vals _ _ HI) as HV. rewrite Forall_forall in HV. specialize (HV _ Ew).
      assert (wf_cst (match w with Some u => u | None => root end)) as Hw by (destruct w; auto).
      eapply sure_bind with (P := fun sa => Post c s sa).
      { destruct (match w with Some u => u | None => root end) as [t lx|es wc|ms wc].
        - destruct f; cbn [sure]; auto. now apply post_refl.
        - apply HL; auto. now apply wf_arr in Hw.
        - destruct f; cbn [sure]; auto. now apply post_refl. }
      intros sa HP. rewrite isRes; [|apply HP|apply root0]. cbn [obind].
      destruct (negb (isUnknown (st (ts_data sa) 0))) eqn:E.
      + cbn [sure]. split; auto. intros _. now apply res_set.
      + eapply sure_mono; [apply (HLs c); auto; apply HP|]. intros r Hr. eapply postO_trans; eauto.
  Qed.
  Lemma after_safe : forall f, PALoops f -> PAfter (S f).
  Proof.
    intros f HA c x af s HN Ea HI. destruct (ng_after _ _ HN _ Ea) as [H1 H2]. cbn [tAfter].
    eapply sure_bind; [apply (HA c); eauto|]. intros [sa out] [HP HO]. cbn [fst snd] in *. destruct out.
    - cbn [sure]. split; auto.
    - eapply sure_mono; [apply (ops_sure false c); eauto; apply HP|]. intros r Hr. eapply postO_trans; eauto.
  Qed.
  Lemma oa_safe : forall f, PExec f -> POA f -> POA (S f).
  Proof.
    intros f HE HO c its x first s HF HN HI. cbn [tOA]. destruct HF as [|[k v] its [[key Ek] Hv] HF].
    - cbn [sure fst snd]. split; [now apply post_refl|discriminate].
    - cbn [fst snd] in *. subst k. cbn [obind]. destruct (lookup key (x_elems x)) as [c'|] eqn:El.
      + apply lookup_in in El. pose proof (ng_elems _ _ HN) as HN'. rewrite Forall_forall in HN'. destruct (HN' _ El) as [Hc Hlab]. cbn [snd] in *.
        eapply sure_bind; [apply HE; auto; now rewrite Hlab|]. rewrite Hlab. intros [sa out] [HP Hout]. cbn [fst snd] in *.
        rewrite isRes; [|apply HP|apply root0]. cbn [obind].
        destruct (negb (isUnknown (st (ts_data sa) 0))) eqn:E.
        * cbn [sure fst snd]. split; auto. intros _. now apply res_set.
        * destruct out; [exfalso; apply res_unk in E; now apply Hout|].
          eapply sure_mono; [apply (HO c); auto; apply HP|]. intros r Hr. eapply postO_trans; eauto.
      + apply HO; auto.
  Qed.
  Lemma iters_safe : forall f, PExec f -> PIters f -> PIters (S f).
  Proof.
    intros f HE HIt c l es b s He Hl HI. cbn [tIters]. destruct He as [|e es He HF].
    - cbn [sure fst]. split; auto. apply frame_refl.
    - destruct Hl as (Hn & Hlab & Hanc & Hne). set (k := lp_bucket l) in *. pose proof (anc_le T HT _ _ Hanc) as Hk.
      eapply sure_bind; [apply reset_sure; auto; [apply HI|lia|apply HI]|]. intros d (HC & HFr & Hu).
      assert (Inv k (tSetData s d)) as HI1 by now apply setData_inv.
      eapply sure_bind; [apply HE; [apply He|auto|now rewrite Hlab]|]. rewrite Hlab. intros [s2 out] [HP Hout]. cbn [fst snd] in *.
      destruct out.
      { exfalso. apply (Hout eq_refl). destruct HP as [HP _]. apply (in_above _ _ HP); [apply anc_zero; auto; apply HP|lia]. }
      unfold isTrue. rewrite idx_st by (destruct HP as [[_ [X _] _ _ _ Y] _]; lia). cbn [obind].
      destruct (loopStep (lp_mode l) b (isTrueS (st (ts_data s2) k))) as [b' leave].
      assert (Inv k s2 /\ frame T k (ts_data s) (ts_data s2)) as [HI2 HF2].
      { destruct HP as (HP1 & HP2 & _). split; auto. eapply frame_trans; eauto. }
      destruct leave; [cbn [sure fst]; auto|].
      eapply sure_mono; [apply (HIt c); auto; repeat split; auto|]. intros r [R1 R2]. split; auto. eapply frame_trans; eauto.
  Qed.
  Lemma loop_safe : forall f, PIters f -> PLoop (S f).
  Proof.
    intros f HIt c l es s He Hl HI. cbn [tLoop]. pose proof Hl as (Hn & Hlab & Hanc & Hne). set (k := lp_bucket l) in *. pose proof (anc_le T HT _ _ Hanc) as Hk.
    rewrite isRes by (try apply HI; lia). cbn [obind]. destruct (negb (isUnknown (st (ts_data s) k))) eqn:E; [cbn [sure]; now apply post_refl|].
    apply res_unk in E.
    assert (above T k (ts_data s)) as HA.
    { intros j Hj _. eapply (closed_up T HT); eauto. apply HI. }
    assert (Inv k (tSetStall s k)) as HI1 by (destruct HI; constructor; auto; lia).
    eapply sure_bind; [apply (HIt c); auto|]. intros [sa res] [HI2 HF2]. cbn [fst tSetStall ts_data] in *.
    eapply sure_bind; [apply reset_sure; auto; [apply HI2|lia|apply HI2]|]. intros d (HC & HFr & Hu). cbn [ts_stall tSetStall].
    assert (frame T k (ts_data s) d) as HF3 by (eapply frame_trans; eauto).
    rewrite (in_stall _ _ HI).
    eapply sure_bind; [apply (mark_sure T HT c d k); auto|]. intros d2 [HC2 HF4]. cbn [sure].
    assert (frame T c (ts_data s) d2) as HF5 by (eapply frame_trans; [eapply frame_sub; eauto|exact HF4]).
    split; [|split].
    - destruct HI2. destruct HI. constructor; cbn; auto. eapply above_frame; eauto.
    - exact HF5.
    - intro Hs0. exfalso. apply Hs0. eapply (closed_up T HT); [apply HI| |exact E]. apply anc_zero; auto; lia.
  Qed.
  Lemma store_sure : forall c x v s, nodeGood c x -> wf_cst v -> Inv c s -> sure (tStore x v s) (fun s' => Post c s s').
  Proof.
    intros c x v s HN Hv HI. unfold tStore. pose proof (ng_store _ _ HN) as Hs. destruct (x_store x) as [|i]; [cbn [sure]; now apply post_refl|].
    unfold idx. destruct (nth_error (ts_slots s) i) as [w|] eqn:E; [|apply nth_error_None in E; rewrite (in_slots _ _ HI) in E; lia].
    cbn [obind sure]. split; [|split; [apply frame_refl|auto]]. destruct HI. constructor; cbn; auto.
    - now rewrite upd_length.
    - rewrite Forall_forall in *. intros u Hu. apply In_nth_error in Hu as (j & Ej). destruct (Nat.eq_dec j i) as [->|Hne].
      + rewrite nth_error_upd_same in Ej by (apply nth_error_Some; congruence). injection Ej as <-. exact Hv.
      + rewrite nth_error_upd_other in Ej by auto. apply in_vals0. eapply nth_error_In; eauto.
  Qed.
  Lemma exec_safe : forall f, PLoops f -> POA f -> PAfter f -> PExec (S f).
  Proof.
    intros f HL HO HA v n s Hv Hn HI. rewrite tExec_S. unfold idx at 1. destruct (nth_error H n) as [x|] eqn:Ex; [|apply nth_error_None in Ex; lia].
    cbn [obind]. pose proof (HH _ _ Ex) as HN. set (c := lab n) in *.
    set (finish := fun s : tst =>
      do (sa, ret) <-
        match x_after x with
        | None => Ok (s, false)
        | Some af => do (sa, _) <- tAfter o H T root f af s; do done <- isResolved (ts_data sa) 0; Ok (sa, done)
        end;
      if ret : bool then Ok (sa, true) else do s2 <- tStore x v sa; Ok (s2, false)).
    assert (forall s1, Inv c s1 -> sure (finish s1) (PostO c s1)) as HFin.
    { intros s1 HI1. unfold finish. eapply sure_bind with (P := PostO c s1).
      - destruct (x_after x) as [af|] eqn:Ea; [|cbn [sure]; split; [now apply post_refl|discriminate]].
        eapply sure_bind; [eapply (HA c); eauto|]. intros [sa out] [HP _]. cbn [fst] in *. rewrite isRes; [|apply HP|apply root0]. cbn [obind sure].
        split; auto. cbn [fst snd]. apply res_set.
      - intros [sa ret] [HP Hr]. cbn [fst snd] in *. destruct ret; [cbn [sure]; split; auto|].
        eapply sure_bind; [apply (store_sure c); auto; apply HP|]. intros s2 HP2. cbn [sure]. split; [eapply post_trans; eauto|discriminate]. }
    set (ops := fun s : tst =>
      do lit <- valOf o v;
      do (sa, ret) <- tRunOps o T root (x_ops x) (Some lit) s;
      if ret : bool then Ok (sa, true) else finish sa).
    assert (forall s1, Inv c s1 -> sure (ops s1) (PostO c s1)) as HOps.
    { intros s1 HI1. unfold ops. destruct (val_ok v Hv) as [lit ->]. cbn [obind].
      eapply sure_bind; [apply (ops_sure true c); auto; [apply HN|discriminate]|]. intros [sa ret] [HP Hr]. cbn [fst snd] in *.
      destruct ret; [cbn [sure]; split; auto|]. eapply sure_mono; [apply HFin; apply HP|]. intros r Hr2. eapply postO_trans; eauto. }
    destruct v as [t lx|es wc|ms wc].
    - exact (HOps s HI).
    - apply wf_arr in Hv as Hv'. destruct Hv' as [_ Hes]. destruct (x_loops x) as [|l0 ls] eqn:El.
      + eapply sure_bind; [apply (HO c); auto; now apply items_ok|]. intros [[sa ret] out] [HP Hr]. cbn [fst snd] in *.
        destruct ret; [cbn [sure]; split; auto|]. eapply sure_mono; [apply (HOps sa); apply HP|]. intros r Hr2. eapply postO_trans; eauto.
      + eapply sure_bind; [apply (HL c); auto; rewrite <- El; apply HN|]. intros [sa out] [HP Hr]. cbn [fst snd] in *.
        destruct out; [cbn [sure]; split; auto|]. eapply sure_mono; [apply (HOps sa); apply HP|]. intros r Hr2. eapply postO_trans; eauto.
    - destruct (x_elems x) as [|e0 es] eqn:El; [exact (HOps s HI)|].
      eapply sure_bind; [apply (HO c); auto; now apply items_ok|]. intros [[sa ret] out] [HP Hr]. cbn [fst snd] in *.
      eapply sure_bind with (P := fun r => Post c s (fst r) /\ (out = true -> set (ts_data (fst r)) 0)).
      { destruct (x_after x) as [af|] eqn:Ea; [|cbn [sure fst]; auto].
        eapply sure_mono; [eapply (HA c); eauto; apply HP|]. intros r [HP2 _]. split; [eapply post_trans; eauto|].
        intro Ho. apply HP2. auto. }
      intros [s2 z] [HP2 Hr2]. cbn [fst snd] in *. rewrite isRes; [|apply HP2|apply root0]. cbn [obind]. destruct ret.
      + destruct out.
        * assert (negb (isUnknown (st (ts_data s2) 0)) = true) as -> by (apply res_set; auto). cbn [implb sure]. split; auto.
        * cbn [implb sure]. split; auto. cbn [fst snd]. apply res_set.
      + destruct (negb (isUnknown (st (ts_data s2) 0))) eqn:E.
        * cbn [sure]. split; auto. intros _. now apply res_set.
        * eapply sure_mono; [apply (HOps s2); apply HP2|]. intros r Hr3. eapply postO_trans; eauto.
  Qed.

  Lemma all_safe : forall f, PExec f /\ PLoops f /\ POA f /\ PLoop f /\ PIters f /\ PAfter f /\ PALoops f.
  Proof.
    induction f as [|f (H1 & H2 & H3 & H4 & H5 & H6 & H7)].
    - repeat split; intro; intros; exact I.
    - repeat split.
      + now apply exec_safe.
      + now apply loops_safe.
      + now apply oa_safe.
      + now apply loop_safe.
      + now apply iters_safe.
      + now apply after_safe.
      + now apply aloops_safe.
  Qed.

  Lemma resolveLoop_sure : forall n d, closed T d -> n <= length T -> sure (resolveLoop n T 0 d) (fun d' => closed T d').
  Proof.
    induction n as [|n IH]; intros d HC Hn; cbn [resolveLoop sure]; auto. rewrite idx_st by (destruct HC; lia). cbn [obind].
    eapply sure_bind with (P := closed T).
    - destruct (isUnknown (st d n)) eqn:E; [|exact HC].
      eapply sure_mono; [apply (mark_sure T HT 0 d n); auto; [apply anc_zero; auto; lia|apply res_unk; now rewrite E]|]. intros d' [X _]; exact X.
    - intros d1 HC1. rewrite idx_st by (destruct HC1; pose proof root0; lia). cbn [obind]. destruct (negb (isUnknown (st d1 0))); [exact HC1|].
      apply IH; auto; lia.
  Qed.

  Theorem match_safe : forall f s, Inv 0 s -> lab 0 = 0 -> 0 < length H -> sure (tMatch o H T root f s) (fun _ => True).
  Proof.
    intros f s HI Hl Hh. unfold tMatch. eapply sure_bind; [apply (proj1 (all_safe f)); auto; now rewrite Hl|]. rewrite Hl.
    intros [sa out] [HP _]. cbn [fst] in *. destruct HP as [HP _]. rewrite (in_stall _ _ HP).
    eapply sure_bind with (P := closed T).
    - unfold resolveAll. rewrite isRes; [|apply HP|apply root0]. cbn [obind]. destruct (negb (isUnknown _)); [apply HP|].
      apply resolveLoop_sure; [apply HP|]. destruct (in_closed _ _ HP) as [-> _]. lia.
    - intros d HC. unfold isTrue. rewrite idx_st by (destruct HC; pose proof root0; lia). exact I.
  Qed.
End Run.
