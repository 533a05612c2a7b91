(** The sites of an expression: their buckets, contexts, and what is inherited
    along the structure of the expression. *)
From Verif Require Import Base MFastVal SFormula SEvents SMerge MExpr SCompile MTransform SFilter MMatcher MTree SDoc SSat PBinTree PSession PPlace PExpr.
From Coq Require Import List NArith ZArith Arith Lia Bool.
Import ListNotations.
Open Scope nat_scope.

(** The atoms and loops of an expression that are not inside a loop of it. *)
Fixpoint direct (e : expr) : list expr :=
  match e with
  | XNot a => direct a
  | XAnd l | XOr l => flat_map direct l
  | XExists _ => [e]
  | XNotExists a => [XExists a]
  | XCmp CNe l r => [XCmp CEq l r]
  | XCmp _ _ _ => [e]
  | XLoop _ _ _ _ => [e]
  | _ => []
  end.

Definition atIn (k' : nat) (e' : expr) (k : nat) (f : form) : Prop :=
  match e' with
  | XLoop _ _ _ b => In (S k', structure b) (bodies k f)
  | _ => In k' (leaves k f)
  end.

Lemma joined_cons : forall bo a b r, joined bo (a :: b :: r) = FBin bo a (joined bo (b :: r)).
Proof. reflexivity. Qed.
Lemma chain_cons : forall c k a b r, sitesChain c k (a :: b :: r) = sites c (S k) a ++ sitesChain c (S k + fsize (structure a)) (b :: r).
Proof. reflexivity. Qed.

(** Where an element of a chain is. *)
Lemma chain_in : forall bo l c k x, In x (sitesChain c k l) -> exists a k1, In a l /\ In x (sites c k1 a)
  /\ (forall y, In y (sites c k1 a) -> In y (sitesChain c k l))
  /\ k <= k1 /\ k1 + fsize (structure a) <= k + fsize (joined bo (map structure l))
  /\ (forall k' e', atIn k' e' k1 (structure a) -> atIn k' e' k (joined bo (map structure l))).
Proof.
  intros bo. induction l as [|a [|b r] IH]; intros c k x Hx; [destruct Hx| |].
  - exists a, k. cbn in *. auto 7.
  - rewrite chain_cons in *. cbn [map]. rewrite joined_cons. apply in_app_iff in Hx as [Hx|Hx].
    + exists a, (S k). cbn [fsize]. repeat split; auto; try lia.
      * now left.
      * intros y Hy. apply in_app_iff. auto.
      * intros k' e' Ha. destruct e'; cbn [atIn leaves bodies] in *; apply in_app_iff; auto.
    + destruct (IH c _ x Hx) as (a0 & k1 & H1 & H2 & H3 & H4 & H5 & H6). exists a0, k1. cbn [fsize map] in *. repeat split; auto; try lia.
      * now right.
      * intros y Hy. apply in_app_iff. auto.
      * intros k' e' Ha. specialize (H6 k' e' Ha). destruct e'; cbn [atIn leaves bodies] in *; apply in_app_iff; auto.
Qed.

Lemma site_shape : forall e c k c' k' e', In (Site c' k' e') (sites c k e) ->
  (k <= k' /\ k' + fsize (structure e') <= k + fsize (structure e)) /\
  ((c' = c /\ In e' (direct e) /\ atIn k' e' k (structure e)) \/
   exists c0 k0 m v i b, In (Site c0 k0 (XLoop m v i b)) (sites c k e) /\ c' = S k0 /\ In (Site c' k' e') (sites c' c' b)).
Proof.
  assert (forall bo l, Forall (fun e => forall c k c' k' e', In (Site c' k' e') (sites c k e) ->
      (k <= k' /\ k' + fsize (structure e') <= k + fsize (structure e)) /\
      ((c' = c /\ In e' (direct e) /\ atIn k' e' k (structure e)) \/
       exists c0 k0 m v i b, In (Site c0 k0 (XLoop m v i b)) (sites c k e) /\ c' = S k0 /\ In (Site c' k' e') (sites c' c' b))) l ->
    forall c k c' k' e', In (Site c' k' e') (sitesChain c k l) ->
      (k <= k' /\ k' + fsize (structure e') <= k + fsize (joined bo (map structure l))) /\
      ((c' = c /\ In e' (flat_map direct l) /\ atIn k' e' k (joined bo (map structure l))) \/
       exists c0 k0 m v i b, In (Site c0 k0 (XLoop m v i b)) (sitesChain c k l) /\ c' = S k0 /\ In (Site c' k' e') (sites c' c' b))) as CH.
  { intros bo l HF c k c' k' e' HI. destruct (chain_in bo l c k _ HI) as (a & k1 & H1 & H2 & H3 & H4 & H5 & H6).
    rewrite Forall_forall in HF. destruct (HF a H1 c k1 c' k' e' H2) as ((R1 & R2) & D). split; [lia|].
    destruct D as [(-> & D1 & D2)|(c0 & k0 & m & v & i & b & L1 & L2 & L3)].
    - left. repeat split; auto. apply in_flat_map. eauto.
    - right. exists c0, k0, m, v, i, b. auto. }
  induction e as [| |g|sa|sa|sa|a IH|l IH|l IH|r p|n l IH|m v i s IHi IHs|a IH|a IH|k l r IHl IHr] using expr_ind'; intros c k0 c' k' e' HI;
    try (destruct HI; fail).
  - cbn [sites structure direct fsize] in *. destruct (IH c (S k0) c' k' e' HI) as ((R1 & R2) & D). split; [lia|].
    destruct D as [(-> & D1 & D2)|D]; [left|right; exact D]. repeat split; auto.
  - rewrite sites_and in *. now apply (CH BAnd).
  - rewrite sites_or in *. now apply (CH BOr).
  - cbn [sites] in *. destruct HI as [E|HI].
    + inversion E; subst. cbn [structure fsize]. split; [lia|]. left. cbn. auto.
    + destruct (IHs (S k0) (S k0) c' k' e' HI) as ((R1 & R2) & D). cbn [structure fsize]. split; [lia|]. right.
      destruct D as [(-> & D1 & D2)|(c0 & k1 & m1 & v1 & i1 & b & L1 & L2 & L3)].
      * exists c, k0, m, v, i, s. split; [now left|auto].
      * exists c0, k1, m1, v1, i1, b. split; [now right|auto].
  - cbn [sites] in *. destruct HI as [E|[]]. inversion E; subst. cbn [structure fsize]. split; [lia|]. left. cbn. auto.
  - cbn [sites] in *. destruct HI as [E|[]]. inversion E; subst. cbn [structure fsize]. split; [lia|]. left. cbn. auto.
  - destruct k; cbn [sites] in *; (destruct HI as [E|[]]; inversion E; subst; cbn [structure fsize]; split; [lia|]; left; cbn; auto).
Qed.

(** In context [c] starting at or before [k], the sites with context [c] are direct. *)
Lemma site_direct : forall e c k k' e', c <= k -> In (Site c k' e') (sites c k e) -> In e' (direct e) /\ atIn k' e' k (structure e).
Proof.
  intros e c k k' e' Hk HI. destruct (site_shape _ _ _ _ _ _ HI) as [_ [(_ & D)|(c0 & k0 & m & v & i & b & L1 & L2 & L3)]]; auto.
  apply site_shape in L1 as [(R1 & _) _]. lia.
Qed.

Lemma site_unique : forall e c k c1 c2 k' e1 e2, In (Site c1 k' e1) (sites c k e) -> In (Site c2 k' e2) (sites c k e) -> c1 = c2 /\ e1 = e2.
Proof.
  assert (forall l, Forall (fun e => forall c k c1 c2 k' e1 e2, In (Site c1 k' e1) (sites c k e) -> In (Site c2 k' e2) (sites c k e) -> c1 = c2 /\ e1 = e2) l ->
    forall c k c1 c2 k' e1 e2, In (Site c1 k' e1) (sitesChain c k l) -> In (Site c2 k' e2) (sitesChain c k l) -> c1 = c2 /\ e1 = e2) as CH.
  { induction 1 as [|a [|b r] Ha Hr IH]; intros c k c1 c2 k' e1 e2 I1 I2; [destruct I1|eapply Ha; eauto|].
    rewrite chain_cons in *.
    assert (forall cc ee, In (Site cc k' ee) (sites c (S k) a) -> k' < S k + fsize (structure a)) as X1.
    { intros cc ee HI. destruct (site_shape _ _ _ _ _ _ HI) as [(? & ?) _]. pose proof (fsize_pos (structure ee)). lia. }
    assert (forall cc ee, In (Site cc k' ee) (sitesChain c (S k + fsize (structure a)) (b :: r)) -> S k + fsize (structure a) <= k') as X2.
    { intros cc ee HI. rewrite <- sites_and in HI. destruct (site_shape _ _ _ _ _ _ HI) as [(? & ?) _]. lia. }
    apply in_app_iff in I1 as [I1|I1]; apply in_app_iff in I2 as [I2|I2]; eauto; exfalso;
      match goal with A : In _ (sites _ _ _), B : In _ (sitesChain _ _ _) |- _ => apply X1 in A; apply X2 in B; lia end. }
  induction e as [| |g|sa|sa|sa|a IH|l IH|l IH|r p|n l IH|m v i s IHi IHs|a IH|a IH|k l r IHl IHr] using expr_ind'; intros c k0 c1 c2 k' e1 e2 I1 I2;
    try (destruct I1; fail).
  - eapply IH; eauto.
  - rewrite sites_and in *. eauto.
  - rewrite sites_or in *. eauto.
  - cbn [sites] in *. destruct I1 as [I1|I1], I2 as [I2|I2].
    + inversion I1; inversion I2; subst. auto.
    + inversion I1; subst. apply site_shape in I2 as [(R1 & _) _]. lia.
    + inversion I2; subst. apply site_shape in I1 as [(R1 & _) _]. lia.
    + eapply IHs; eauto.
  - cbn [sites] in *. destruct I1 as [I1|[]], I2 as [I2|[]]. inversion I1; inversion I2; subst. auto.
  - cbn [sites] in *. destruct I1 as [I1|[]], I2 as [I2|[]]. inversion I1; inversion I2; subst. auto.
  - destruct k; cbn [sites] in *; (destruct I1 as [I1|[]], I2 as [I2|[]]; inversion I1; inversion I2; subst; auto).
Qed.

(** Properties inherited from an expression to its direct parts, and from a loop to its body. *)
Section Inherit.
  Variable P : nat -> expr -> Prop.
  Hypothesis Pd : forall cv e e', P cv e -> In e' (direct e) -> P cv e'.
  Hypothesis Pl : forall cv m v i b, P cv (XLoop m v i b) -> P v b.

  (** All sites of [b] in whatever context. *)
  Lemma site_inherit : forall e c k cv, P cv e -> c <= k -> forall c' k' e', In (Site c' k' e') (sites c k e) ->
    (c' = c /\ P cv e') \/ exists c0 k0 m v i b, In (Site c0 k0 (XLoop m v i b)) (sites c k e) /\ c' = S k0 /\ P v b /\ P v e'.
  Proof.
    assert (forall n e c k cv, P cv e -> c <= k -> forall c' k' e', k' < n -> In (Site c' k' e') (sites c k e) ->
      (c' = c /\ P cv e') \/ exists c0 k0 m v i b, In (Site c0 k0 (XLoop m v i b)) (sites c k e) /\ c' = S k0 /\ P v b /\ P v e') as X.
    { induction n as [|n IH]; intros e c k cv HP Hk c' k' e' Hn HI; [lia|].
      destruct (site_shape _ _ _ _ _ _ HI) as [(R1 & R2) [(-> & D & _)|(c0 & k0 & m & v & i & b & L1 & L2 & L3)]].
      - left. split; auto. eapply Pd; eauto.
      - right. exists c0, k0, m, v, i, b. split; auto. split; auto. subst c'.
        destruct (site_shape _ _ _ _ _ _ L3) as [(R3 & R4) _].
        assert (P v b) as HB.
        { destruct (IH e c k cv HP Hk c0 k0 _ ltac:(lia) L1) as [(-> & HL)|(c1 & k1 & m1 & v1 & i1 & b1 & _ & _ & _ & HL)]; eapply Pl; eauto. }
        split; auto. apply site_direct in L3 as [D _]; auto. eapply Pd; eauto. }
    intros e c k cv HP Hk c' k' e' HI. eapply (X (S k')); eauto.
  Qed.
End Inherit.

(** ** What direct parts inherit *)
Lemma direct_loop : forall m v i s, direct (XLoop m v i s) = [XLoop m v i s].
Proof. reflexivity. Qed.

Lemma direct_kind : forall e e', In e' (direct e) ->
  (exists a, e' = XExists a) \/ (exists k l r, e' = XCmp k l r /\ k <> CNe) \/ (exists m v i s, e' = XLoop m v i s).
Proof.
  induction e as [| |g|sa|sa|sa|a IH|l IH|l IH|r p|n l IH|m v i s IHi IHs|a IH|a IH|k l r IHl IHr] using expr_ind'; intros e' HI; try (destruct HI; fail).
  - apply IH. exact HI.
  - cbn [direct] in HI. apply in_flat_map in HI as (x & Hx & HI). rewrite Forall_forall in IH. eapply IH; eauto.
  - cbn [direct] in HI. apply in_flat_map in HI as (x & Hx & HI). rewrite Forall_forall in IH. eapply IH; eauto.
  - cbn [direct] in HI. destruct HI as [<-|[]]. eauto 10.
  - cbn [direct] in HI. destruct HI as [<-|[]]. eauto 10.
  - cbn [direct] in HI. destruct HI as [<-|[]]. eauto 10.
  - right. left. destruct k; cbn [direct] in HI; destruct HI as [<-|[]]; repeat eexists; discriminate.
Qed.

(** One induction for all of them. *)
Lemma direct_inherit : forall (P : expr -> Prop),
  (forall a, P (XNot a) -> P a) ->
  (forall l x, P (XAnd l) -> In x l -> P x) -> (forall l x, P (XOr l) -> In x l -> P x) ->
  (forall a, P (XNotExists a) -> P (XExists a)) ->
  (forall l r, P (XCmp CNe l r) -> P (XCmp CEq l r)) ->
  forall e e', P e -> In e' (direct e) -> P e'.
Proof.
  intros P P1 P2 P3 P4 P5.
  induction e as [| |g|sa|sa|sa|a IH|l IH|l IH|r p|n l IH|m v i s IHi IHs|a IH|a IH|k l r IHl IHr] using expr_ind'; intros e' HP HI; try (destruct HI; fail).
  - cbn [direct] in HI. auto.
  - cbn [direct] in HI. apply in_flat_map in HI as (x & Hx & HI). rewrite Forall_forall in IH. eapply IH; eauto.
  - cbn [direct] in HI. apply in_flat_map in HI as (x & Hx & HI). rewrite Forall_forall in IH. eapply IH; eauto.
  - cbn [direct] in HI. destruct HI as [<-|[]]. auto.
  - cbn [direct] in HI. destruct HI as [<-|[]]. auto.
  - cbn [direct] in HI. destruct HI as [<-|[]]. auto.
  - destruct k; cbn [direct] in HI; destruct HI as [<-|[]]; auto.
Qed.

Lemma direct_compilable : forall o cv e e', compilable o cv e -> In e' (direct e) -> compilable o cv e'.
Proof.
  intros o cv. apply direct_inherit; auto.
  - intros l x HP Hx. apply compilable_and in HP as [_ HP]. eapply allC_in; eauto.
  - intros l x HP Hx. apply compilable_or in HP as [_ HP]. eapply allC_in; eauto.
  - cbn. tauto.
Qed.
Lemma fix_all : forall {X} (P : X -> Prop) l x, (fix go l := match l with [] => True | x :: r => P x /\ go r end) l -> In x l -> P x.
Proof. intros X P. induction l as [|y l IHl]; intros x HP Hx; [destruct Hx|]. destruct HP, Hx as [<-|Hx]; auto. Qed.
Lemma direct_regular : forall P cv e e', regular P cv e -> In e' (direct e) -> regular P cv e'.
Proof.
  intros P cv. apply direct_inherit; auto.
  - intros l x HP Hx. cbn [regular] in HP. eapply fix_all in HP; eauto.
  - intros l x HP Hx. cbn [regular] in HP. eapply fix_all in HP; eauto.
Qed.
Lemma direct_frefs : forall e e', In e' (direct e) -> incl (frefs e') (frefs e).
Proof.
  intros e0 e'. apply (direct_inherit (fun e => incl (frefs e) (frefs e0))); auto.
  - intros l x HP Hx f Hf. apply HP. cbn [frefs]. apply in_flat. eauto.
  - intros l x HP Hx f Hf. apply HP. cbn [frefs]. apply in_flat. eauto.
  - apply incl_refl.
Qed.
Lemma pathsOf_ne : forall cv l r, pathsOf cv (XCmp CNe l r) = pathsOf cv (XCmp CEq l r).
Proof. reflexivity. Qed.
Lemma direct_tame : forall doc cv cur e e', tame doc cv cur e -> In e' (direct e) -> tame doc cv cur e'.
Proof.
  intros doc cv cur. apply direct_inherit; auto.
  - intros l x HP Hx. cbn [tame] in HP. eapply fix_all in HP; eauto.
  - intros l x HP Hx. cbn [tame] in HP. eapply fix_all in HP; eauto.
Qed.
