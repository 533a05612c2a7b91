(** Specification: boolean formulas, their pre-order numbering, two- and
    three-valued evaluation.  Independent of the node-array representation. *)
From Coq Require Import List Arith Lia Bool.
Import ListNotations.

(** Connectives.  [BNeor] is a disjunction that waits for both sides
    ("non-exclusive or", used to merge expressions); [ULoop] wraps a loop body. *)
Inductive uop := UNot | ULoop.
Inductive bop := BOr | BAnd | BNeor.

Inductive form :=
| FLeaf
| FUn (o : uop) (a : form)
| FBin (o : bop) (a b : form).
Notation FNot := (FUn UNot).
Notation FLoop := (FUn ULoop).
Notation FOr := (FBin BOr).
Notation FAnd := (FBin BAnd).
Notation FNeor := (FBin BNeor).

Fixpoint fsize (t : form) : nat :=
  match t with
  | FLeaf => 1
  | FUn _ a => S (fsize a)
  | FBin _ a b => S (fsize a + fsize b)
  end.

(** Atoms of a formula numbered in pre-order from [i]: its leaves, and the body
    of each loop (whose outcome is reported as a whole). *)
Fixpoint atoms (i : nat) (t : form) : list nat :=
  match t with
  | FLeaf => [i]
  | FNot a => atoms (S i) a
  | FLoop _ => [S i]
  | FBin _ a b => atoms (S i) a ++ atoms (S i + fsize a) b
  end.

(** Two-valued connectives. *)
Definition b_bin (o : bop) (x y : bool) : bool :=
  match o with BOr => x || y | BAnd => x && y | BNeor => x || y end.

(** Truth value under an assignment of the atoms. *)
Fixpoint beval (v : nat -> bool) (i : nat) (t : form) : bool :=
  match t with
  | FLeaf => v i
  | FNot a => negb (beval v (S i) a)
  | FLoop _ => v (S i)
  | FBin o a b => b_bin o (beval v (S i) a) (beval v (S i + fsize a) b)
  end.

(** Three-valued connectives (Kleene); [None] is "not known yet".  [BNeor] waits
    for both sides. *)
Definition k_not (a : option bool) : option bool :=
  match a with Some b => Some (negb b) | None => None end.
Definition k_bin (o : bop) (a b : option bool) : option bool :=
  match o with
  | BOr => match a, b with
           | Some true, _ | _, Some true => Some true
           | Some false, Some false => Some false
           | _, _ => None
           end
  | BAnd => match a, b with
            | Some false, _ | _, Some false => Some false
            | Some true, Some true => Some true
            | _, _ => None
            end
  | BNeor => match a, b with
             | Some x, Some y => Some (x || y)
             | _, _ => None
             end
  end.

(** Value under a partial assignment of the atoms. *)
Fixpoint keval (r : nat -> option bool) (i : nat) (t : form) : option bool :=
  match t with
  | FLeaf => r i
  | FNot a => k_not (keval r (S i) a)
  | FLoop _ => r (S i)
  | FBin o a b => k_bin o (keval r (S i) a) (keval r (S i + fsize a) b)
  end.

(** Final value: unreported leaves are false; an unreported loop has the value of
    its body with everything in it unreported. *)
Fixpoint feval (r : nat -> option bool) (i : nat) (t : form) : bool :=
  match t with
  | FLeaf => match r i with Some b => b | None => false end
  | FNot a => negb (feval r (S i) a)
  | FLoop a => match r (S i) with Some b => b | None => feval (fun _ => None) (S i) a end
  | FBin o a b => b_bin o (feval r (S i) a) (feval r (S i + fsize a) b)
  end.

(** The partial assignment built by a sequence of reports, the first report of
    an atom winning. *)
Fixpoint first_report (l : list (nat * bool)) (k : nat) : option bool :=
  match l with
  | [] => None
  | (j, b) :: r => if Nat.eqb j k then Some b else first_report r k
  end.
