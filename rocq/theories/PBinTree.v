(** Proofs about the predicate tree. *)
From Verif Require Import Base MBinTree SFormula.
From Coq Require Import List Arith Lia Bool.
Import ListNotations.

(** ** Layout *)

Definition utype (o : uop) : ntype := match o with UNot => NNot | ULoop => NLoop end.
Definition btype (o : bop) : ntype := match o with BOr => NOr | BAnd => NAnd | BNeor => NNeor end.

(** [laid T p i t]: the nodes of [t] sit in [T] from index [i] on, in pre-order,
    with parent [p] for the root and all links right (a leaf's child links do not
    matter). *)
Fixpoint laid (T : list node) (p i : nat) (t : form) : Prop :=
  match t with
  | FLeaf => exists l r, nth_error T i = Some (Node NLeaf p l r)
  | FUn o a => nth_error T i = Some (Node (utype o) p (S i) 0) /\ laid T i (S i) a
  | FBin o a b => nth_error T i = Some (Node (btype o) p (S i) (S i + fsize a))
                  /\ laid T i (S i) a /\ laid T i (S i + fsize a) b
  end.

Lemma fsize_pos : forall t, 1 <= fsize t.
Proof. destruct t; cbn; lia. Qed.

Lemma laid_node : forall T p i t, laid T p i t -> exists d, nth_error T i = Some d /\ n_parent d = p.
Proof. destruct t; cbn; intros; [destruct H as (l & r & ->) | destruct H as (-> & _) | destruct H as (-> & _)]; eexists; split; eauto. Qed.

Lemma laid_bound : forall t T p i, laid T p i t -> i + fsize t <= length T.
Proof.
  induction t; cbn; intros T p i H.
  - destruct H as (l & r & H). assert (i < length T) by (apply nth_error_Some; congruence). lia.
  - destruct H as (_ & H). apply IHt in H. lia.
  - destruct H as (_ & _ & H). apply IHt2 in H. lia.
Qed.

(** ** States *)

Definition st (data : sdata) (i : nat) : sval := nth i data SUnknown.

Lemma idx_st : forall data i, i < length data -> idx data i = Ok (st data i).
Proof.
  intros data i H. unfold idx, st. rewrite (nth_error_nth' data SUnknown H). reflexivity.
Qed.

Lemma idx_node : forall (T : list node) i d, nth_error T i = Some d -> idx T i = Ok d.
Proof. intros T i d H. unfold idx. now rewrite H. Qed.

Lemma st_upd_same : forall data i s, i < length data -> st (upd data i s) i = s.
Proof. intros. unfold st. now apply nth_upd_same. Qed.
Lemma st_upd_other : forall data i j s, i <> j -> st (upd data i s) j = st data j.
Proof. intros. unfold st. now apply nth_upd_other. Qed.

(** [same_out d d' i n]: the two arrays agree outside [[i, i+n)]. *)
Definition same_out (d d' : sdata) (i n : nat) : Prop :=
  length d' = length d /\ forall j, (j < i \/ i + n <= j) -> st d' j = st d j.

Lemma same_out_refl : forall d i n, same_out d d i n.
Proof. split; auto. Qed.
Lemma same_out_trans : forall a b c i n, same_out a b i n -> same_out b c i n -> same_out a c i n.
Proof. intros a b c i n [H1 H2] [H3 H4]. split; [congruence|]. intros j Hj. rewrite H4, H2; auto. Qed.
Lemma same_out_weaken : forall a b i n i' n', same_out a b i n -> i' <= i -> i + n <= i' + n' -> same_out a b i' n'.
Proof. intros a b i n i' n' [H1 H2] L1 L2. split; auto. intros j Hj. apply H2. lia. Qed.
Lemma same_out_upd : forall d i s n, 1 <= n -> same_out d (upd d i s) i n.
Proof. intros. split; [apply upd_length|]. intros j Hj. apply st_upd_other. lia. Qed.

(** Every node of a range is settled. *)
Definition allset (d : sdata) (i n : nat) : Prop := forall j, i <= j < i + n -> st d j <> SUnknown.
Definition allunk (d : sdata) (i n : nat) : Prop := forall j, i <= j < i + n -> st d j = SUnknown.

(** A settled node has everything below it settled. *)
Fixpoint coh (d : sdata) (i : nat) (t : form) : Prop :=
  (st d i <> SUnknown -> allset d i (fsize t)) /\
  (st d i = SUnknown ->
   match t with
   | FLeaf => True
   | FUn _ a => coh d (S i) a
   | FBin _ a b => coh d (S i) a /\ coh d (S i + fsize a) b
   end).

Lemma coh_ext : forall t d d' i, (forall j, i <= j < i + fsize t -> st d' j = st d j) -> coh d i t -> coh d' i t.
Proof.
  induction t; intros d d' i E H; pose proof (E i ltac:(cbn; lia)) as Ei; cbn [coh] in *; rewrite Ei.
  - destruct H as [H1 H2]. split; auto. intros Hs j Hj. rewrite E by auto. now apply H1.
  - destruct H as [H1 H2]. split.
    + intros Hs j Hj. rewrite E by auto. now apply H1.
    + intro Hs. apply (IHt d); auto. intros j Hj. apply E. cbn. lia.
  - destruct H as [H1 H2]. split.
    + intros Hs j Hj. rewrite E by auto. now apply H1.
    + intro Hs. destruct (H2 Hs). split; [apply (IHt1 d)|apply (IHt2 d)]; auto;
      intros j Hj; apply E; cbn; lia.
Qed.

Lemma coh_unk : forall t d i, allunk d i (fsize t) -> coh d i t.
Proof.
  induction t; intros d i H; cbn [coh]; (split; [intro X; exfalso; apply X; apply H; cbn; lia|intros _]).
  - exact I.
  - apply IHt. intros j Hj. apply H. cbn. lia.
  - split; [apply IHt1|apply IHt2]; intros j Hj; apply H; cbn; lia.
Qed.

(** ** [resolveRecursive] *)

(** Settles everything strictly below; touches nothing else. *)
Lemma resolve_spec : forall t T p i d fuel,
  laid T p i t -> length d = length T -> fsize t <= fuel ->
  match t with
  | FLeaf => True
  | FUn _ a => coh d (S i) a
  | FBin _ a b => coh d (S i) a /\ coh d (S i + fsize a) b
  end ->
  exists d', resolveRecursive fuel T d i = Ok d'
    /\ same_out d d' (S i) (fsize t - 1)
    /\ allset d' (S i) (fsize t - 1)
    /\ (forall j, st d j <> SUnknown -> st d' j = st d j).
Proof.
  induction t as [|o a IH|o a IHa b IHb]; intros T p i d fuel HL Hd Hf HC.
  - destruct fuel as [|f]; [cbn in Hf; lia|]. destruct HL as (l & r & E). cbn [resolveRecursive].
    rewrite (idx_node _ _ _ E). cbn. exists d. split; [reflexivity|]. split; [apply same_out_refl|].
    split; auto. intros j Hj. lia.
  - destruct fuel as [|f]; [cbn in Hf; lia|]. destruct HL as (E & HL). cbn [resolveRecursive].
    rewrite (idx_node _ _ _ E). cbn [obind n_type n_left n_right].
    replace (hasLeft (utype o)) with true by (destruct o; reflexivity).
    replace (hasRight (utype o)) with false by (destruct o; reflexivity).
    pose proof (laid_bound _ _ _ _ HL) as HB. pose proof (fsize_pos a).
    rewrite idx_st by lia. cbn [obind]. cbn [fsize] in *. replace (S (fsize a) - 1) with (fsize a) by lia.
    destruct (st d (S i)) eqn:Es; cbn [isUnknown obind];
      try (exists d; split; [reflexivity|]; split; [apply same_out_refl|]; split; auto;
           destruct a; cbn [coh] in HC; apply HC; congruence).
    set (d1 := upd d (S i) SResolved).
    assert (length d1 = length T) as Hd1 by (unfold d1; rewrite upd_length; auto).
    destruct (IH T i (S i) d1 f HL Hd1) as (d' & -> & SO & AS & KP); [lia| |].
    { destruct a as [|o' a'|o' a1 a2]; auto; cbn [coh] in HC; destruct HC as [_ HC]; specialize (HC Es).
      - eapply coh_ext; [|exact HC]. intros j Hj. unfold d1. apply st_upd_other. lia.
      - destruct HC as [HC1 HC2]. split; (eapply coh_ext; [|eassumption]);
        intros j Hj; unfold d1; apply st_upd_other; lia. }
    exists d'. cbn [obind]. split; [reflexivity|]. split; [|split].
    + eapply same_out_trans; [apply (same_out_upd d (S i) SResolved); lia|].
      eapply same_out_weaken; [exact SO|lia|lia].
    + intros j Hj. destruct (Nat.eq_dec j (S i)) as [->|Hne].
      * rewrite (proj2 SO) by lia. unfold d1. rewrite st_upd_same by lia. discriminate.
      * apply AS. lia.
    + intros j Hj. rewrite KP; unfold d1; rewrite st_upd_other; auto; congruence.
  - destruct fuel as [|f]; [cbn in Hf; lia|]. destruct HL as (E & HLa & HLb). destruct HC as [HCa HCb].
    cbn [resolveRecursive].
    rewrite (idx_node _ _ _ E). cbn [obind n_type n_left n_right].
    replace (hasLeft (btype o)) with true by (destruct o; reflexivity).
    replace (hasRight (btype o)) with true by (destruct o; reflexivity).
    pose proof (laid_bound _ _ _ _ HLa) as HBa. pose proof (laid_bound _ _ _ _ HLb) as HBb.
    pose proof (fsize_pos a). pose proof (fsize_pos b).
    rewrite idx_st by lia. cbn [obind]. cbn [fsize] in *.
    (* left half *)
    assert (exists d1,
      (if isUnknown (st d (S i)) then resolveRecursive f T (upd d (S i) SResolved) (S i) else Ok d) = Ok d1
      /\ same_out d d1 (S i) (fsize a) /\ allset d1 (S i) (fsize a)
      /\ (forall j, st d j <> SUnknown -> st d1 j = st d j)) as (d1 & -> & SO1 & AS1 & KP1).
    { destruct (st d (S i)) eqn:Es; cbn [isUnknown];
      try (exists d; split; [reflexivity|]; split; [apply same_out_refl|]; split; auto;
           destruct a; cbn [coh] in HCa; apply HCa; congruence).
      set (d1 := upd d (S i) SResolved).
      assert (length d1 = length T) as Hd1 by (unfold d1; rewrite upd_length; auto).
      destruct (IHa T i (S i) d1 f HLa Hd1) as (d' & -> & SO & AS & KP); [lia| |].
      { destruct a as [|o' a'|o' a1 a2]; auto; cbn [coh] in HCa; destruct HCa as [_ HC]; specialize (HC Es).
        - eapply coh_ext; [|exact HC]. intros j Hj. unfold d1. apply st_upd_other. lia.
        - destruct HC as [HC1 HC2]. split; (eapply coh_ext; [|eassumption]);
          intros j Hj; unfold d1; apply st_upd_other; lia. }
      exists d'. split; [reflexivity|]. split; [|split].
      - eapply same_out_trans; [apply (same_out_upd d (S i) SResolved (fsize a)); lia|].
        eapply same_out_weaken; [exact SO|lia|lia].
      - intros j Hj. destruct (Nat.eq_dec j (S i)) as [->|Hne].
        + rewrite (proj2 SO) by lia. unfold d1. rewrite st_upd_same by lia. discriminate.
        + apply AS. lia.
      - intros j Hj. rewrite KP; unfold d1; rewrite st_upd_other; auto; congruence. }
    cbn [obind].
    assert (length d1 = length T) as Hd1 by (destruct SO1; congruence).
    set (k := S i + fsize a) in *. change (S (i + fsize a)) with k.
    rewrite idx_st by lia. cbn [obind].
    assert (coh d1 k b) as HCb1.
    { eapply coh_ext; [|exact HCb]. intros j Hj. apply (proj2 SO1). lia. }
    replace (S (fsize a + fsize b) - 1) with (fsize a + fsize b) by lia.
    destruct (st d1 k) eqn:Es; cbn [isUnknown];
      try (exists d1; split; [reflexivity|]; split; [eapply same_out_weaken; [exact SO1|lia|lia]|]; split; auto;
           intros j Hj; destruct (Nat.lt_ge_cases j k);
           [apply AS1; lia|destruct b; cbn [coh] in HCb1; apply HCb1; try congruence; lia]).
    set (d2 := upd d1 k SResolved).
    assert (length d2 = length T) as Hd2 by (unfold d2; rewrite upd_length; auto).
    destruct (IHb T i k d2 f HLb Hd2) as (d' & -> & SO & AS & KP); [lia| |].
    { destruct b as [|o' a'|o' a1 a2]; auto; cbn [coh] in HCb1; destruct HCb1 as [_ HC]; specialize (HC Es).
      - eapply coh_ext; [|exact HC]. intros j Hj. unfold d2. apply st_upd_other. lia.
      - destruct HC as [HC1 HC2]. split; (eapply coh_ext; [|eassumption]);
        intros j Hj; unfold d2; apply st_upd_other; lia. }
    exists d'. split; [reflexivity|]. split; [|split].
    + eapply same_out_trans; [eapply same_out_weaken; [exact SO1|lia|lia]|].
      eapply same_out_trans; [eapply same_out_weaken; [apply (same_out_upd d1 k SResolved 1); lia|lia|lia]|].
      eapply same_out_weaken; [exact SO|lia|lia].
    + intros j Hj. destruct (Nat.lt_ge_cases j k).
      * rewrite (proj2 SO) by lia. unfold d2. rewrite st_upd_other by lia. apply AS1. lia.
      * destruct (Nat.eq_dec j k) as [->|Hne].
        -- rewrite (proj2 SO) by lia. unfold d2. rewrite st_upd_same by lia. discriminate.
        -- apply AS. lia.
    + intros j Hj. assert (st d1 j <> SUnknown) by (rewrite KP1; auto).
      rewrite KP; unfold d2; rewrite st_upd_other; auto; congruence.
Qed.

(** ** The invariant *)

Definition k_un (o : uop) (a : option bool) : option bool :=
  match o with UNot => k_not a | ULoop => a end.

(** Three-valued evaluation in which any node may have been reported directly. *)
Fixpoint ov (r : nat -> option bool) (i : nat) (t : form) : option bool :=
  match r i with
  | Some b => Some b
  | None =>
      match t with
      | FLeaf => None
      | FUn o a => k_un o (ov r (S i) a)
      | FBin o a b => k_bin o (ov r (S i) a) (ov r (S i + fsize a) b)
      end
  end.

Fixpoint INV (d : sdata) (r : nat -> option bool) (i : nat) (t : form) : Prop :=
  (st d i = SUnknown /\ ov r i t = None /\
   match t with
   | FLeaf => True
   | FUn _ a => INV d r (S i) a
   | FBin _ a b => INV d r (S i) a /\ INV d r (S i + fsize a) b
   end)
  \/ (exists b, st d i = sbool b /\ ov r i t = Some b /\ allset d i (fsize t) /\
      match t with
      | FBin BNeor a c => r i = None -> INV d r (S i) a /\ INV d r (S i + fsize a) c
      | _ => True
      end).

Lemma sbool_set : forall b, sbool b <> SUnknown.
Proof. destruct b; discriminate. Qed.

Lemma INV_unknown : forall t d r i, INV d r i t -> (st d i = SUnknown <-> ov r i t = None).
Proof.
  intros t d r i H.
  assert (st d i = SUnknown /\ ov r i t = None \/ exists b, st d i = sbool b /\ ov r i t = Some b) as [[H1 H2]|(b & H1 & H2)].
  { destruct t; cbn [INV] in H; destruct H as [(H1 & H2 & _)|(b & H1 & H2 & _)]; eauto. }
  - tauto.
  - split; intro X; exfalso; [rewrite H1 in X; now destruct b|congruence].
Qed.

Lemma INV_state : forall t d r i, INV d r i t ->
  st d i = match ov r i t with None => SUnknown | Some b => sbool b end.
Proof.
  intros t d r i H.
  destruct t; cbn [INV] in H; destruct H as [(H1 & H2 & _)|(b & H1 & H2 & _)]; now rewrite H2.
Qed.

Lemma INV_coh : forall t d r i, INV d r i t -> coh d i t.
Proof.
  induction t; intros d r i H; cbn [INV coh] in *;
    (destruct H as [(H1 & _ & H2)|(b & H1 & _ & H2)];
     [split; [congruence|intros _]|split; [intros _; apply H2|intro X; rewrite H1 in X; now destruct b]]).
  - exact I.
  - eauto.
  - destruct H2; eauto.
Qed.

Lemma ov_ext : forall t r r' i, (forall j, i <= j < i + fsize t -> r' j = r j) -> ov r' i t = ov r i t.
Proof.
  induction t; intros r r' i E; cbn [ov]; rewrite (E i) by (cbn; lia); destruct (r i); auto.
  - rewrite (IHt r); auto. intros j Hj. apply E. cbn. lia.
  - rewrite (IHt1 r), (IHt2 r); auto; intros j Hj; apply E; cbn; lia.
Qed.

Lemma INV_ext : forall t d d' r r' i,
  (forall j, i <= j < i + fsize t -> st d' j = st d j) ->
  (forall j, i <= j < i + fsize t -> r' j = r j) ->
  INV d r i t -> INV d' r' i t.
Proof.
  induction t; intros d d' r r' i E1 E2 H; pose proof (E1 i ltac:(cbn; lia)) as Ei;
    cbn [INV] in *; rewrite Ei, (ov_ext _ r r') by auto;
    (destruct H as [(H1 & H2 & H3)|(b & H1 & H2 & H3)];
     [left; split; [auto|split; [auto|]]
     |right; exists b; split; [auto|split; [auto|split; [intros j Hj; rewrite E1 by auto; now apply H3|]]]]).
  - exact I.
  - exact I.
  - eapply IHt; [| |exact H3]; intros; [apply E1|apply E2]; cbn; lia.
  - exact I.
  - destruct H3 as [H3 H4]. split; [eapply IHt1; [| |exact H3]|eapply IHt2; [| |exact H4]];
      intros; try apply E1; try apply E2; cbn; lia.
  - destruct H3 as [_ H3]. destruct o; auto. rewrite (E2 i) by (cbn; lia). intro Hr.
    destruct (H3 Hr) as [H4 H5]. split; [eapply IHt1; [| |exact H4]|eapply IHt2; [| |exact H5]];
      intros; try apply E1; try apply E2; cbn; lia.
Qed.

Lemma INV_fresh : forall t d i r, allunk d i (fsize t) -> (forall j, i <= j < i + fsize t -> r j = None) -> INV d r i t.
Proof.
  induction t; intros d i r H Hr; cbn [INV]; left; (split; [apply H; cbn; lia|]).
  - cbn. rewrite Hr by (cbn; lia). auto.
  - assert (INV d r (S i) t) as X by (apply IHt; intros j Hj; [apply H|apply Hr]; cbn; lia).
    split; auto. cbn [ov]. rewrite Hr by (cbn; lia).
    apply INV_unknown in X. rewrite (proj1 X); [destruct o; reflexivity|]. apply H. cbn. pose proof (fsize_pos t). lia.
  - assert (INV d r (S i) t1) as X1 by (apply IHt1; intros j Hj; [apply H|apply Hr]; cbn; lia).
    assert (INV d r (S i + fsize t1) t2) as X2 by (apply IHt2; intros j Hj; [apply H|apply Hr]; cbn; lia).
    split; auto. cbn [ov]. rewrite Hr by (cbn; lia).
    pose proof (proj1 (INV_unknown _ _ _ _ X1)) as Y1. pose proof (proj1 (INV_unknown _ _ _ _ X2)) as Y2.
    pose proof (fsize_pos t1). pose proof (fsize_pos t2).
    rewrite Y1, Y2; [destruct o; reflexivity| |]; apply H; cbn; lia.
Qed.

Lemma INV_allset : forall t d r i, INV d r i t -> st d i <> SUnknown -> allset d i (fsize t).
Proof.
  intros t d r i H Hs. apply INV_coh in H. destruct t; cbn [coh] in H; now apply H.
Qed.

(** ** [checkNode] computes the connective *)

Lemma check_un : forall T d i p o a r,
  nth_error T i = Some (Node (utype o) p (S i) 0) -> S i < length d ->
  INV d r (S i) a ->
  checkNode T d i = Ok (k_un o (ov r (S i) a)).
Proof.
  intros T d i p o a r E L H. unfold checkNode. rewrite (idx_node _ _ _ E). cbn [obind n_type n_left n_right].
  apply INV_state in H. destruct o; cbn [utype]; rewrite idx_st by auto; cbn [obind]; rewrite H;
  destruct (ov r (S i) a) as [[]|]; reflexivity.
Qed.

Lemma check_bin : forall T d i p o a b r,
  nth_error T i = Some (Node (btype o) p (S i) (S i + fsize a)) -> S i + fsize a < length d ->
  INV d r (S i) a -> INV d r (S i + fsize a) b ->
  checkNode T d i = Ok (k_bin o (ov r (S i) a) (ov r (S i + fsize a) b)).
Proof.
  intros T d i p o a b r E L H1 H2. unfold checkNode. rewrite (idx_node _ _ _ E). cbn [obind n_type n_left n_right].
  apply INV_state in H1, H2.
  destruct o; cbn [btype]; rewrite !idx_st by lia; cbn [obind]; rewrite H1, H2;
  destruct (ov r (S i) a) as [[]|]; destruct (ov r (S i + fsize a) b) as [[]|]; reflexivity.
Qed.

(** ** Marking *)

(** What [markNode] does once a node has been set and its subtree settled. *)
Definition afterMark (f : nat) (T : list node) (stall : nat) (d : sdata) (i : nat) : outcome sdata :=
  if Nat.eqb i 0 || Nat.eqb i stall then Ok d
  else
    do nd <- idx T i;
    do c <- checkNode T d (n_parent nd);
    match c with
    | None => Ok d
    | Some v => markNode f T stall d (n_parent nd) v
    end.

Definition setr (r : nat -> option bool) (k : nat) (b : bool) : nat -> option bool :=
  fun j => if Nat.eqb j k then Some b else r j.

Lemma setr_same : forall r k b, setr r k b k = Some b.
Proof. intros. unfold setr. now rewrite Nat.eqb_refl. Qed.
Lemma setr_other : forall r k b j, j <> k -> setr r k b j = r j.
Proof. intros. unfold setr. apply Nat.eqb_neq in H. now rewrite H. Qed.

Lemma ov_reported : forall t r i b, r i = Some b -> ov r i t = Some b.
Proof. intros t r i b H. destruct t; cbn [ov]; now rewrite H. Qed.

Lemma ov_none : forall t r i, ov r i t = None -> r i = None.
Proof. intros t r i H. destruct (r i) eqn:E; auto. rewrite (ov_reported t r i b E) in H. discriminate. Qed.

(** Setting the root of a subtree whose children satisfy the invariant. *)
Lemma mark_root : forall t T p i d r v f stall,
  laid T p i t -> length d = length T -> st d i = SUnknown ->
  match t with
  | FLeaf => True
  | FUn _ a => INV d r (S i) a
  | FBin _ a b => INV d r (S i) a /\ INV d r (S i + fsize a) b
  end ->
  ov r i t = Some v ->
  exists d', markNode (S f) T stall d i v = afterMark f T stall d' i
    /\ INV d' r i t /\ same_out d d' i (fsize t) /\ st d' i = sbool v
    /\ (forall j, st d j <> SUnknown -> st d' j = st d j).
Proof.
  intros t T p i d r v f stall HL Hd Hu HC Hov.
  pose proof (laid_bound _ _ _ _ HL) as HB. pose proof (fsize_pos t) as HP.
  cbn [markNode]. rewrite idx_st by lia. cbn [obind]. rewrite Hu. cbn [isUnknown negb].
  set (d1 := upd d i (sbool v)).
  assert (length d1 = length T) as Hd1 by (unfold d1; rewrite upd_length; auto).
  destruct (resolve_spec t T p i d1 (S (length T)) HL Hd1) as (d' & E & SO & AS & KP).
  { lia. }
  { destruct t; auto.
    - eapply coh_ext; [|eapply INV_coh; exact HC]. intros j Hj. unfold d1. apply st_upd_other. lia.
    - destruct HC as [HC1 HC2]. split; (eapply coh_ext; [|eapply INV_coh; eassumption]);
      intros j Hj; unfold d1; apply st_upd_other; lia. }
  rewrite E. cbn [obind].
  assert (st d' i = sbool v) as Hs.
  { rewrite (proj2 SO) by lia. unfold d1. apply st_upd_same. lia. }
  assert (forall j, st d j <> SUnknown -> st d' j = st d j) as KP'.
  { intros j Hj. assert (j <> i) by congruence. rewrite KP; unfold d1; rewrite st_upd_other; auto. }
  exists d'. split; [reflexivity|]. split; [|split; [|split]]; auto.
  - assert (allset d' i (fsize t)) as A.
    { intros j Hj. destruct (Nat.eq_dec j i) as [->|]; [rewrite Hs; apply sbool_set|]. apply AS. lia. }
    destruct t; cbn [INV]; right; exists v; split; auto; split; auto; split; auto.
    destruct o; auto. intro Hr. destruct HC as [HC1 HC2].
    cbn [ov] in Hov. rewrite Hr in Hov.
    assert (ov r (S i) t1 <> None /\ ov r (S i + fsize t1) t2 <> None) as [N1 N2].
    { destruct (ov r (S i) t1); [|discriminate]. destruct (ov r (S i + fsize t1) t2); [|discriminate].
      split; congruence. }
    assert (st d (S i) <> SUnknown) as U1 by (intro X; apply N1, (INV_unknown _ _ _ _ HC1), X).
    assert (st d (S i + fsize t1) <> SUnknown) as U2 by (intro X; apply N2, (INV_unknown _ _ _ _ HC2), X).
    split; (eapply INV_ext; [|intros; reflexivity|eassumption]); intros j Hj; apply KP'.
    + exact (INV_allset _ _ _ _ HC1 U1 j Hj).
    + exact (INV_allset _ _ _ _ HC2 U2 j Hj).
  - eapply same_out_trans; [apply (same_out_upd d i (sbool v)); lia|].
    eapply same_out_weaken; [exact SO|lia|lia].
Qed.

Lemma k_un_none : forall o a, k_un o a = None <-> a = None.
Proof. destruct o, a as [[]|]; cbn; split; congruence. Qed.

(** Marking an unknown node [k] inside [t]: the update climbs to the root of [t]
    and either stops with the root still unknown or continues from the root. *)
Lemma mark_inside : forall t T p i d r k b stall fuel,
  laid T p i t -> length d = length T -> INV d r i t ->
  i <= k < i + fsize t -> st d k = SUnknown ->
  (forall j, i < j < i + fsize t -> j <> stall) ->
  fsize t <= fuel ->
  exists d', INV d' (setr r k b) i t /\ same_out d d' i (fsize t)
    /\ (forall j, st d j <> SUnknown -> st d' j = st d j)
    /\ st d' k = sbool b
    /\ ((st d' i = SUnknown /\ markNode fuel T stall d k b = Ok d')
        \/ (st d' i <> SUnknown /\ exists f, fuel <= f + fsize t /\
            markNode fuel T stall d k b = afterMark f T stall d' i)).
Proof.
  induction t as [|o a IH|o a IHa c IHc]; intros T p i d r k b stall fuel HL Hd HI Hk Hu Hst Hf;
    (destruct fuel as [|f]; [cbn in Hf; lia|]).
  - (* leaf *)
    cbn in Hk. assert (k = i) by lia. subst k.
    destruct (mark_root FLeaf T p i d (setr r i b) b f stall HL Hd Hu I) as (d' & E & HI' & SO & Hs & KP).
    { cbn. now rewrite setr_same. }
    exists d'. split; [auto|]. split; [auto|]. split; [auto|]. split; [auto|]. right.
    split; [rewrite Hs; apply sbool_set|]. exists f. cbn [fsize]; split; [lia|exact E].
  - (* unary *)
    cbn [INV] in HI. destruct HI as [(Hi & Hov & HIa)|(v & Hi & Hov & HAS & _)];
      [|exfalso; exact (HAS k Hk Hu)].
    destruct (Nat.eq_dec k i) as [->|Hne].
    + destruct (mark_root (FUn o a) T p i d (setr r i b) b f stall HL Hd Hu) as (d' & E & HI' & SO & Hs & KP).
      { eapply INV_ext; [intros; reflexivity| |exact HIa]. intros j Hj. apply setr_other. lia. }
      { apply ov_reported, setr_same. }
      exists d'. split; [auto|]. split; [auto|]. split; [auto|]. split; [auto|]. right.
      split; [rewrite Hs; apply sbool_set|]. exists f. cbn. split; [lia|exact E].
    + pose proof HL as HL0. destruct HL as (E & HLa). cbn [fsize] in *.
      pose proof (laid_bound _ _ _ _ HLa) as HB. pose proof (fsize_pos a).
      destruct (IH T i (S i) d r k b stall (S f) HLa Hd HIa) as (d1 & HI1 & SO1 & KP1 & Hk1 & Hcase);
        [lia|auto|intros j Hj; apply Hst; lia|lia|].
      assert (length d1 = length T) as Hd1 by (destruct SO1; congruence).
      assert (st d1 i = SUnknown) as Hi1 by (rewrite (proj2 SO1) by lia; auto).
      assert (setr r k b i = None) as Hri by (rewrite setr_other by lia; eapply ov_none; eauto).
      assert (same_out d d1 i (S (fsize a))) as SO1' by (eapply same_out_weaken; [exact SO1|lia|lia]).
      destruct Hcase as [[Hc Hm]|(Hc & f' & Hf' & Hm)].
      * exists d1. split; [|split; [auto|split; [auto|split; [auto|left; auto]]]].
        cbn [INV]. left. split; [auto|]. split; auto. cbn [ov]. rewrite Hri.
        apply (INV_unknown a) in HI1. apply k_un_none. tauto.
      * rewrite Hm. unfold afterMark. replace (Nat.eqb (S i) 0) with false by reflexivity.
        replace (Nat.eqb (S i) stall) with false
          by (symmetry; apply Nat.eqb_neq; apply Hst; lia).
        cbn [orb]. destruct (laid_node _ _ _ _ HLa) as (nd & En & Ep).
        rewrite (idx_node _ _ _ En). cbn [obind]. rewrite Ep.
        rewrite (check_un T d1 i p o a (setr r k b) E) by (auto; lia). cbn [obind].
        destruct (k_un o (ov (setr r k b) (S i) a)) as [v|] eqn:Ek.
        -- destruct f' as [|f']; [lia|].
           destruct (mark_root (FUn o a) T p i d1 (setr r k b) v f' stall HL0 Hd1 Hi1) as (d' & E' & HI' & SO & Hs & KP).
           { exact HI1. }
           { cbn [ov]. now rewrite Hri. }
           exists d'. split; [auto|]. split; [eapply same_out_trans; eauto|].
           assert (forall j, st d j <> SUnknown -> st d' j = st d j) as KP'.
           { intros j Hj. rewrite KP; rewrite KP1; auto. }
           split; [auto|]. split; [rewrite KP; auto; rewrite Hk1; apply sbool_set|].
           right. split; [rewrite Hs; apply sbool_set|]. exists f'. split; [lia|exact E'].
        -- exfalso. apply k_un_none in Ek. apply (INV_unknown a) in HI1. tauto.
  - (* binary *)
    cbn [INV] in HI. destruct HI as [(Hi & Hov & HIa & HIc)|(v & Hi & Hov & HAS & _)];
      [|exfalso; exact (HAS k Hk Hu)].
    destruct (Nat.eq_dec k i) as [->|Hne].
    + destruct (mark_root (FBin o a c) T p i d (setr r i b) b f stall HL Hd Hu) as (d' & E & HI' & SO & Hs & KP).
      { split; (eapply INV_ext; [intros; reflexivity| |eassumption]); intros j Hj; apply setr_other; lia. }
      { apply ov_reported, setr_same. }
      exists d'. split; [auto|]. split; [auto|]. split; [auto|]. split; [auto|]. right.
      split; [rewrite Hs; apply sbool_set|]. exists f. cbn. split; [lia|exact E].
    + pose proof HL as HL0. destruct HL as (E & HLa & HLc). cbn [fsize] in *.
      pose proof (laid_bound _ _ _ _ HLa) as HBa. pose proof (laid_bound _ _ _ _ HLc) as HBc.
      pose proof (fsize_pos a). pose proof (fsize_pos c).
      assert (setr r k b i = None) as Hri by (rewrite setr_other by lia; eapply ov_none; eauto).
      (* common continuation *)
      assert (forall d1 f',
        INV d1 (setr r k b) (S i) a -> INV d1 (setr r k b) (S i + fsize a) c ->
        same_out d d1 i (S (fsize a + fsize c)) ->
        (forall j, st d j <> SUnknown -> st d1 j = st d j) -> st d1 k = sbool b -> st d1 i = SUnknown ->
        S f <= f' + (fsize a + fsize c) ->
        exists d', INV d' (setr r k b) i (FBin o a c) /\ same_out d d' i (S (fsize a + fsize c))
        /\ (forall j, st d j <> SUnknown -> st d' j = st d j)
        /\ st d' k = sbool b
        /\ ((st d' i = SUnknown /\
             (do cc <- checkNode T d1 i; match cc with None => Ok d1 | Some v => markNode f' T stall d1 i v end) = Ok d')
        \/ (st d' i <> SUnknown /\ exists f0, S f <= f0 + S (fsize a + fsize c) /\
            (do cc <- checkNode T d1 i; match cc with None => Ok d1 | Some v => markNode f' T stall d1 i v end)
            = afterMark f0 T stall d' i))) as CONT.
      { intros d1 f' HI1a HI1c SO1 KP1 Hk1 Hi1 Hf'.
        assert (length d1 = length T) as Hd1 by (destruct SO1; congruence).
        rewrite (check_bin T d1 i p o a c (setr r k b) E) by (auto; lia). cbn [obind].
        destruct (k_bin o (ov (setr r k b) (S i) a) (ov (setr r k b) (S i + fsize a) c)) as [v|] eqn:Ek.
        - destruct f' as [|f']; [lia|].
          destruct (mark_root (FBin o a c) T p i d1 (setr r k b) v f' stall HL0 Hd1 Hi1) as (d' & E' & HI' & SO & Hs & KP).
          { split; assumption. }
          { cbn [ov]. now rewrite Hri. }
          exists d'. split; [auto|]. split; [eapply same_out_trans; eauto|].
          assert (forall j, st d j <> SUnknown -> st d' j = st d j) as KP'.
          { intros j Hj. rewrite KP; rewrite KP1; auto. }
          split; [auto|]. split; [rewrite KP; auto; rewrite Hk1; apply sbool_set|].
          right. split; [rewrite Hs; apply sbool_set|]. exists f'. split; [lia|exact E'].
        - exists d1. split; [|split; [auto|split; [auto|split; [auto|left; auto]]]].
          cbn [INV]. left. split; [auto|]. split; auto. cbn [ov]. now rewrite Hri. }
      assert (k < S i + fsize a \/ S i + fsize a <= k) as [Hka|Hkc] by lia.
      * destruct (IHa T i (S i) d r k b stall (S f) HLa Hd HIa) as (d1 & HI1 & SO1 & KP1 & Hk1 & Hcase);
          [lia|auto|intros j Hj; apply Hst; lia|lia|].
        assert (st d1 i = SUnknown) as Hi1 by (rewrite (proj2 SO1) by lia; auto).
        assert (INV d1 (setr r k b) (S i + fsize a) c) as HIc1.
        { eapply INV_ext; [| |exact HIc]; intros j Hj; [apply (proj2 SO1); lia|apply setr_other; lia]. }
        assert (same_out d d1 i (S (fsize a + fsize c))) as SO1' by (eapply same_out_weaken; [exact SO1|lia|lia]).
        destruct Hcase as [[Hc Hm]|(Hc & f' & Hf' & Hm)].
        -- exists d1. split; [|split; [auto|split; [auto|split; [auto|left; auto]]]].
           cbn [INV]. left. split; [auto|]. split; auto. cbn [ov]. rewrite Hri.
           pose proof (proj1 (INV_unknown _ _ _ _ HI1) Hc) as N1. rewrite N1.
           cbn [ov] in Hov. rewrite (ov_none _ _ _ (Hov : ov r i (FBin o a c) = None)) in Hov.
           rewrite (ov_ext c r (setr r k b)) by (intros j Hj; apply setr_other; lia).
           assert (ov r (S i) a = None) as N2.
           { apply (proj1 (INV_unknown _ _ _ _ HIa)). destruct (st d (S i)) eqn:Es; auto;
             exfalso; rewrite KP1 in Hc; congruence. }
           now rewrite N2 in Hov.
        -- destruct (CONT d1 f' HI1 HIc1 SO1' KP1 Hk1 Hi1) as (d' & C1 & C2 & C3 & C4 & C5); [lia|].
           exists d'. split; [auto|]. split; [auto|]. split; [auto|]. split; [auto|].
           rewrite Hm. unfold afterMark. replace (Nat.eqb (S i) 0) with false by reflexivity.
           replace (Nat.eqb (S i) stall) with false
             by (symmetry; apply Nat.eqb_neq; apply Hst; lia).
           cbn [orb]. destruct (laid_node _ _ _ _ HLa) as (nd & En & Ep).
           rewrite (idx_node _ _ _ En). cbn [obind]. rewrite Ep. exact C5.
      * destruct (IHc T i (S i + fsize a) d r k b stall (S f) HLc Hd HIc) as (d1 & HI1 & SO1 & KP1 & Hk1 & Hcase);
          [lia|auto|intros j Hj; apply Hst; lia|lia|].
        assert (st d1 i = SUnknown) as Hi1 by (rewrite (proj2 SO1) by lia; auto).
        assert (INV d1 (setr r k b) (S i) a) as HIa1.
        { eapply INV_ext; [| |exact HIa]; intros j Hj; [apply (proj2 SO1); lia|apply setr_other; lia]. }
        assert (same_out d d1 i (S (fsize a + fsize c))) as SO1' by (eapply same_out_weaken; [exact SO1|lia|lia]).
        destruct Hcase as [[Hc Hm]|(Hc & f' & Hf' & Hm)].
        -- exists d1. split; [|split; [auto|split; [auto|split; [auto|left; auto]]]].
           cbn [INV]. left. split; [auto|]. split; auto. cbn [ov]. rewrite Hri.
           pose proof (proj1 (INV_unknown _ _ _ _ HI1) Hc) as N1. rewrite N1.
           cbn [ov] in Hov. rewrite (ov_none _ _ _ (Hov : ov r i (FBin o a c) = None)) in Hov.
           rewrite (ov_ext a r (setr r k b)) by (intros j Hj; apply setr_other; lia).
           assert (ov r (S i + fsize a) c = None) as N2.
           { apply (proj1 (INV_unknown _ _ _ _ HIc)). destruct (st d (S i + fsize a)) eqn:Es; auto;
             exfalso; rewrite KP1 in Hc; congruence. }
           now rewrite N2 in Hov.
        -- destruct (CONT d1 f' HIa1 HI1 SO1' KP1 Hk1 Hi1) as (d' & C1 & C2 & C3 & C4 & C5); [lia|].
           exists d'. split; [auto|]. split; [auto|]. split; [auto|]. split; [auto|].
           rewrite Hm. unfold afterMark. replace (Nat.eqb (S i + fsize a) 0) with false by reflexivity.
           replace (Nat.eqb (S i + fsize a) stall) with false
             by (symmetry; apply Nat.eqb_neq; apply Hst; lia).
           cbn [orb]. destruct (laid_node _ _ _ _ HLc) as (nd & En & Ep).
           rewrite (idx_node _ _ _ En). cbn [obind]. rewrite Ep. exact C5.
Qed.

(** Marking inside a subtree whose root is the whole tree's root or the stall
    index: no panic, invariant kept, nothing changed outside. *)
Lemma mark_spec : forall t T p i d r k b stall,
  laid T p i t -> length d = length T -> INV d r i t ->
  i <= k < i + fsize t -> st d k = SUnknown ->
  (i = 0 \/ i = stall) -> (forall j, i < j < i + fsize t -> j <> stall) ->
  exists d', mark T stall d k b = Ok d'
    /\ INV d' (setr r k b) i t /\ same_out d d' i (fsize t)
    /\ (forall j, st d j <> SUnknown -> st d' j = st d j)
    /\ st d' k = sbool b.
Proof.
  intros t T p i d r k b stall HL Hd HI Hk Hu Hroot Hst.
  pose proof (laid_bound _ _ _ _ HL) as HB.
  destruct (mark_inside t T p i d r k b stall (S (length T)) HL Hd HI Hk Hu Hst) as (d' & H1 & H2 & H3 & H4 & H5); [lia|].
  exists d'. split; [|auto]. unfold mark. destruct H5 as [[_ H5]|(_ & f & _ & H5)]; auto.
  rewrite H5. unfold afterMark.
  replace (Nat.eqb i 0 || Nat.eqb i stall) with true; auto.
  symmetry. apply orb_true_iff. rewrite !Nat.eqb_eq. tauto.
Qed.
