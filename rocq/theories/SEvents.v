(** Specification of reporting sessions: what a sequence of reports to a
    predicate tree, including complete loop runs, should mean. *)
From Verif Require Import SFormula.
From Coq Require Import List Arith Lia Bool.
Import ListNotations.

(** Quantifier of a loop. *)
Inductive lmode := LAny | LEvery | LAnyEvery.

(** One event: leaf [k] turned out [b]; or the loop with body root [k], body
    formula [a] and quantifier [m] was run over a sequence of elements, each
    element giving its own events. *)
Inductive ev :=
| ERep (k : nat) (b : bool)
| ELoop (k : nat) (a : form) (m : lmode) (its : list (list ev)).

(** Quantifiers over the outcomes of the iterations. *)
Definition quant (m : lmode) (l : list bool) : bool :=
  match m with
  | LAny => existsb (fun b => b) l
  | LEvery => forallb (fun b => b) l
  | LAnyEvery => existsb (fun b => b) l && forallb (fun b => b) l
  end.

Definition known_true (o : option bool) : bool := match o with Some true => true | _ => false end.

(** The report an event amounts to, seen from the enclosing formula.  An
    iteration counts as matched when the body is known to be true. *)
Fixpoint den (e : ev) : nat * bool :=
  match e with
  | ERep k b => (k, b)
  | ELoop k a m its =>
      (k, quant m (map (fun it => known_true (keval (first_report (map den it)) k a)) its))
  end.

(** Atoms of a formula that are plain leaves. *)
Fixpoint leaves (i : nat) (t : form) : list nat :=
  match t with
  | FLeaf => [i]
  | FNot a => leaves (S i) a
  | FLoop _ => []
  | FBin _ a b => leaves (S i) a ++ leaves (S i + fsize a) b
  end.

(** Atoms that are loop bodies, with the body. *)
Fixpoint bodies (i : nat) (t : form) : list (nat * form) :=
  match t with
  | FLeaf => []
  | FNot a => bodies (S i) a
  | FLoop a => [(S i, a)]
  | FBin _ a b => bodies (S i) a ++ bodies (S i + fsize a) b
  end.

(** The events of a session on formula [t] numbered from [i]. *)
Inductive wf_ev : nat -> form -> ev -> Prop :=
| wf_rep : forall i t k b, In k (leaves i t) -> wf_ev i t (ERep k b)
| wf_loop : forall i t k a m its,
    In (k, a) (bodies i t) -> Forall (Forall (wf_ev k a)) its -> wf_ev i t (ELoop k a m its).

Section EvInd.
  Variable P : ev -> Prop.
  Hypothesis Hrep : forall k b, P (ERep k b).
  Hypothesis Hloop : forall k a m its, Forall (Forall P) its -> P (ELoop k a m its).
  Fixpoint ev_ind' (e : ev) : P e :=
    match e with
    | ERep k b => Hrep k b
    | ELoop k a m its =>
        Hloop k a m its
          ((fix go its : Forall (Forall P) its :=
              match its with
              | [] => Forall_nil _
              | it :: r =>
                  Forall_cons it
                    ((fix go2 it : Forall P it :=
                        match it with
                        | [] => Forall_nil _
                        | e :: r2 => Forall_cons e (ev_ind' e) (go2 r2)
                        end) it) (go r)
              end) its)
    end.
End EvInd.
