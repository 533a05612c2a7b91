(** Shared definitions: bytes, slices, outcomes of Go calls. *)
From Coq Require Import String Ascii.
From Coq Require Import List NArith ZArith Arith Lia Bool.
From Coq Require Import ZifyBool ZifyN ZifyNat.
Import ListNotations.
Open Scope list_scope.

(** A byte is an [N] (< 256 when it comes from real data); Go's [[]byte] and
    [string] are byte lists. *)
Definition byte := N.
Definition bytes := list N.

Definition is_byte (c : N) : Prop := (c < 256)%N.
Definition all_bytes (l : bytes) : Prop := Forall is_byte l.

(** Readable byte strings for examples and for constant tables. *)
Fixpoint s2b (s : string) : bytes :=
  match s with
  | EmptyString => []
  | String a r => N_of_ascii a :: s2b r
  end.
Arguments s2b s%string.

Fixpoint bytes_eqb (a b : bytes) : bool :=
  match a, b with
  | [], [] => true
  | x :: a', y :: b' => N.eqb x y && bytes_eqb a' b'
  | _, _ => false
  end.

Lemma bytes_eqb_eq : forall a b, bytes_eqb a b = true <-> a = b.
Proof.
  induction a as [|x a IH]; destruct b as [|y b]; cbn; split; intro H;
    try reflexivity; try discriminate.
  - apply andb_true_iff in H as [H1 H2]. apply N.eqb_eq in H1. apply IH in H2. congruence.
  - inversion H; subst. rewrite N.eqb_refl. cbn. now apply IH.
Qed.

Lemma bytes_eqb_refl : forall a, bytes_eqb a a = true.
Proof. intro a. now apply bytes_eqb_eq. Qed.

Lemma bytes_eqb_neq : forall a b, bytes_eqb a b = false <-> a <> b.
Proof.
  intros a b. split.
  - intros H E. apply bytes_eqb_eq in E. congruence.
  - intros H. destruct (bytes_eqb a b) eqn:E; auto. apply bytes_eqb_eq in E. contradiction.
Qed.

Definition bytes_dec : forall a b : bytes, {a = b} + {a <> b}.
Proof. apply list_eq_dec. apply N.eq_dec. Defined.

(** [data[a:b]] for in-range bounds. *)
Definition slice (data : bytes) (a b : nat) : bytes := firstn (b - a) (skipn a data).

Lemma slice_length : forall data a b,
  (a <= b)%nat -> (b <= length data)%nat -> length (slice data a b) = (b - a)%nat.
Proof.
  intros. unfold slice. rewrite firstn_length, skipn_length. lia.
Qed.

Lemma skipn_app_exact : forall (A:Type) (a b : list A) n, n = length a -> skipn n (a ++ b) = b.
Proof.
  intros A a b n ->. rewrite skipn_app, Nat.sub_diag, skipn_all. reflexivity.
Qed.

Lemma firstn_app_exact : forall (A:Type) (a b : list A) n, n = length a -> firstn n (a ++ b) = a.
Proof.
  intros A a b n ->. rewrite firstn_app, Nat.sub_diag, firstn_all. cbn. apply app_nil_r.
Qed.

Lemma skipn_add : forall (A:Type) (l : list A) a b, skipn b (skipn a l) = skipn (a + b) l.
Proof.
  intros A l a. revert l. induction a; intros; cbn.
  - reflexivity.
  - destruct l; cbn. { destruct b; reflexivity. } apply IHa.
Qed.

Lemma skipn_skipn_app : forall (A:Type) (l w r : list A) n,
  skipn n l = w ++ r -> skipn (n + length w) l = r.
Proof.
  intros. rewrite <- skipn_add, H. now apply skipn_app_exact.
Qed.

Lemma slice_from_skipn : forall (l mid post : bytes) n,
  skipn n l = mid ++ post -> slice l n (n + length mid) = mid.
Proof.
  intros. unfold slice. replace (n + length mid - n)%nat with (length mid) by lia.
  rewrite H. now apply firstn_app_exact.
Qed.

Lemma slice_app : forall pre mid post : bytes,
  slice (pre ++ mid ++ post) (length pre) (length pre + length mid) = mid.
Proof.
  intros. eapply slice_from_skipn. now apply skipn_app_exact.
Qed.

(** Outcome of a Go call: normal value, returned error, panic, or (model only)
    out of fuel. *)
Inductive outcome (A : Type) : Type :=
| Ok (a : A)
| Err
| Panic
| OutOfFuel.
Arguments Ok {A} _.
Arguments Err {A}.
Arguments Panic {A}.
Arguments OutOfFuel {A}.

Definition obind {A B} (x : outcome A) (f : A -> outcome B) : outcome B :=
  match x with
  | Ok a => f a
  | Err => Err
  | Panic => Panic
  | OutOfFuel => OutOfFuel
  end.
Notation "'do' x <- a ; b" := (obind a (fun x => b)) (at level 200, x pattern, a at level 100, b at level 200).

(** Replace the [n]-th element; out of range leaves the list alone (callers
    check the range first when Go would panic). *)
Fixpoint upd {A} (l : list A) (n : nat) (x : A) : list A :=
  match l, n with
  | [], _ => []
  | _ :: r, O => x :: r
  | y :: r, S m => y :: upd r m x
  end.

Lemma upd_length : forall A (l : list A) n x, length (upd l n x) = length l.
Proof. induction l; destruct n; cbn; intros; auto. Qed.

Lemma nth_error_upd_same : forall A (l : list A) n x,
  (n < length l)%nat -> nth_error (upd l n x) n = Some x.
Proof. induction l; destruct n; cbn; intros; try lia; auto. apply IHl. lia. Qed.

Lemma nth_error_upd_other : forall A (l : list A) n m x,
  n <> m -> nth_error (upd l n x) m = nth_error l m.
Proof. induction l; destruct n, m; cbn; intros; auto; try lia. Qed.

Lemma nth_upd_same : forall A (l : list A) n x d,
  (n < length l)%nat -> nth n (upd l n x) d = x.
Proof. induction l; destruct n; cbn; intros; try lia; auto. apply IHl. lia. Qed.

Lemma nth_upd_other : forall A (l : list A) n m x d,
  n <> m -> nth m (upd l n x) d = nth m l d.
Proof. induction l; destruct n, m; cbn; intros; auto; try lia. Qed.
