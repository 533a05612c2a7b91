(** Proofs about field collection. *)
From Verif Require Import Base SEvents MExpr SExpr.
From Coq Require Import List NArith Arith Lia Bool.
Import ListNotations.

Lemma path_eqb_eq : forall a b, path_eqb a b = true <-> a = b.
Proof.
  induction a as [|x a IH]; destruct b as [|y b]; cbn; split; intro H; try discriminate; auto.
  - apply andb_true_iff in H as [H1 H2]. apply bytes_eqb_eq in H1. apply IH in H2. congruence.
  - inversion H; subst. rewrite bytes_eqb_refl. now apply IH.
Qed.

Lemma fieldExprMatches_eq : forall a b, fieldExprMatches a b = true <-> a = b.
Proof.
  intros [r p] [r' p']. unfold fieldExprMatches. cbn. rewrite andb_true_iff, Nat.eqb_eq, path_eqb_eq.
  split; [intros [-> ->]; auto|]. intro H; inversion H; auto.
Qed.

Lemma existsb_eqb_in : forall r vs, existsb (Nat.eqb r) vs = true <-> In r vs.
Proof.
  intros. rewrite existsb_exists. split.
  - intros (x & H & E). apply Nat.eqb_eq in E. now subst.
  - intro H. exists r. split; auto. apply Nat.eqb_refl.
Qed.

Lemma existsb_match_in : forall f fs, existsb (fieldExprMatches f) fs = true <-> In f fs.
Proof.
  intros. rewrite existsb_exists. split.
  - intros (x & H & E). apply fieldExprMatches_eq in E. now subst.
  - intro H. exists f. split; auto. now apply fieldExprMatches_eq.
Qed.

Lemma NoDup_snoc : forall A (l : list A) x, NoDup l -> ~ In x l -> NoDup (l ++ [x]).
Proof.
  induction l as [|y l IH]; cbn; intros x H1 H2; [constructor; auto; constructor|].
  inversion H1; subst. constructor.
  - rewrite in_app_iff. cbn. firstorder.
  - apply IH; auto.
Qed.

Definition fetch_ok (e : expr) : Prop := forall vs fs,
  match fetchRec e vs fs with
  | Ok fs' => (NoDup fs -> NoDup fs') /\ (forall f, In f fs' <-> In f fs \/ mentions e vs f)
              /\ ~ has_unsupported e
  | Panic => has_unsupported e
  | _ => False
  end.

Lemma fetch_list_ok : forall l, Forall fetch_ok l -> forall vs fs,
  match fetchList l vs fs with
  | Ok fs' => (NoDup fs -> NoDup fs')
              /\ (forall f, In f fs' <-> In f fs \/ exists x, In x l /\ mentions x vs f)
              /\ (forall x, In x l -> ~ has_unsupported x)
  | Panic => exists x, In x l /\ has_unsupported x
  | _ => False
  end.
Proof.
  induction l as [|x l IH]; intros HF vs fs; cbn [fetchList].
  - split; auto. split; [|intros ? []]. intro f. split; auto. intros [H|(? & [] & _)]; auto.
  - inversion HF as [|? ? Hx Hl]; subst. specialize (Hx vs fs).
    destruct (fetchRec x vs fs) as [fs1| | |] eqn:E; cbn [obind]; try contradiction.
    + destruct Hx as (N1 & M1 & U1). specialize (IH Hl vs fs1).
      destruct (fetchList l vs fs1) as [fs2| | |] eqn:E2; try contradiction.
      * destruct IH as (N2 & M2 & U2). split; auto. split.
        -- intro f. rewrite M2, M1. split.
           ++ intros [[H|H]|(y & Hy & H)]; auto; right; [exists x|exists y]; cbn; auto.
           ++ intros [H|(y & [<-|Hy] & H)]; auto. right. eauto.
        -- intros y [<-|Hy]; auto.
      * destruct IH as (y & Hy & H). exists y. cbn. auto.
    + exists x. cbn. auto.
Qed.

Lemma fetch_rec_ok : forall e, fetch_ok e.
Proof.
  induction e using expr_ind'; intros vs fs; cbn [fetchRec]; rewrite ?fetchRec_list.
  1, 2: constructor.
  1-4: split; [auto|split; [|intro H; inversion H]]; intro f; split; auto; intros [H|H]; auto; inversion H.
  - specialize (IHe vs fs). destruct (fetchRec e vs fs); try contradiction; [|now constructor].
    destruct IHe as (N1 & M1 & U1). split; auto. split; [|intro H; inversion H; auto].
    intro f. rewrite M1. split; (intros [H|H]; auto; right); [now constructor|now inversion H].
  - pose proof (fetch_list_ok _ H vs fs) as X. destruct (fetchList l vs fs); try contradiction.
    + destruct X as (N1 & M1 & U1). split; auto. split; [|intro U; inversion U; subst; eapply U1; eauto].
      intro f. rewrite M1. split; (intros [Y|Y]; auto; right).
      * destruct Y as (x & Hx & Y). econstructor; eauto.
      * inversion Y; subst; eauto.
    + destruct X as (x & Hx & Y). econstructor; eauto.
  - pose proof (fetch_list_ok _ H vs fs) as X. destruct (fetchList l vs fs); try contradiction.
    + destruct X as (N1 & M1 & U1). split; auto. split; [|intro U; inversion U; subst; eapply U1; eauto].
      intro f. rewrite M1. split; (intros [Y|Y]; auto; right).
      * destruct Y as (x & Hx & Y). eapply men_or; eauto.
      * inversion Y; subst; eauto.
    + destruct X as (x & Hx & Y). eapply un_or; eauto.
  - destruct (existsb (Nat.eqb r) vs) eqn:E1; [|destruct (existsb (fieldExprMatches (r, p)) fs) eqn:E2].
    + apply existsb_eqb_in in E1. split; auto. split; [|intro H; inversion H].
      intro f. split; auto. intros [H|H]; auto. inversion H; subst. contradiction.
    + apply existsb_match_in in E2. split; auto. split; [|intro H; inversion H].
      intro f. split; auto. intros [H|H]; auto. inversion H; subst. auto.
    + split; [|split; [|intro H; inversion H]].
      * intro N. apply NoDup_snoc; auto. intro H. apply existsb_match_in in H. congruence.
      * intro f. rewrite in_app_iff. cbn. split.
        -- intros [H|[<-|[]]]; auto. right. constructor. intro H. apply existsb_eqb_in in H. congruence.
        -- intros [H|H]; auto. inversion H; subst. auto.
  - pose proof (fetch_list_ok _ H vs fs) as X. destruct (fetchList l vs fs); try contradiction.
    + destruct X as (N1 & M1 & U1). split; auto. split; [|intro U; inversion U; subst; eapply U1; eauto].
      intro f. rewrite M1. split; (intros [Y|Y]; auto; right).
      * destruct Y as (x & Hx & Y). econstructor; eauto.
      * inversion Y; subst; eauto.
    + destruct X as (x & Hx & Y). eapply un_func; eauto.
  - specialize (IHe1 vs fs). destruct (fetchRec e1 vs fs) as [fs1| | |]; cbn [obind]; try contradiction;
      [|now apply un_in].
    destruct IHe1 as (N1 & M1 & U1). specialize (IHe2 (v :: vs) fs1).
    destruct (fetchRec e2 (v :: vs) fs1) as [fs2| | |]; try contradiction; [|now apply un_body].
    destruct IHe2 as (N2 & M2 & U2). split; auto. split; [|intro U; inversion U; subst; auto].
    intro f. rewrite M2, M1. split.
    + intros [[H|H]|H]; auto; right; [now apply men_in|now apply men_body].
    + intros [H|H]; auto. inversion H; subst; auto.
  - specialize (IHe vs fs). destruct (fetchRec e vs fs); try contradiction; [|now constructor].
    destruct IHe as (N1 & M1 & U1). split; auto. split; [|intro H; inversion H; auto].
    intro f. rewrite M1. split; (intros [H|H]; auto; right); [now constructor|now inversion H].
  - constructor.
  - specialize (IHe1 vs fs). destruct (fetchRec e1 vs fs) as [fs1| | |]; cbn [obind]; try contradiction;
      [|now apply un_l].
    destruct IHe1 as (N1 & M1 & U1). specialize (IHe2 vs fs1).
    destruct (fetchRec e2 vs fs1) as [fs2| | |]; try contradiction; [|now apply un_r].
    destruct IHe2 as (N2 & M2 & U2). split; auto. split; [|intro U; inversion U; subst; auto].
    intro f. rewrite M2, M1. split.
    + intros [[H|H]|H]; auto; right; [now apply men_l|now apply men_r].
    + intros [H|H]; auto. inversion H; subst; auto.
Qed.
